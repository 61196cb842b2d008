(** History.v -- client programs: sequences of library calls on any number of
    multi_array variables, run on the model of the library.

    A variable is a multi_array object.  Besides its multi_array variables a
    program holds named views and multi_array_refs (handles), created at any time
    from any array, subarray, view or ref, and used later; subarrays, and views
    that are not given a name, are temporaries (expressions).  A destroyed
    variable stays in the list as [None]; using it is undefined behaviour.  A
    handle stays in the list when its array has been destroyed or resized; the
    model then has it point into a returned block, so that using it is undefined
    behaviour. *)

From Verif Require Import Base StorageOrder Ranges Layout Access Objects Memory Ops MultiArray.

(** one bracket of indices[..][..]: a single index, or range().start(lo)
    .finish(hi).stride(s), each of start and finish optional (index_range.hpp:47-82) *)
Inductive subscript := At (i : Z) | Slice (lo hi : option Z) (stride : Z).
Definition slice_range (lo hi : option Z) (stride : Z) : index_range :=
  let r0 := ir_default in
  let r1 := match lo with Some s => ir_set_start r0 s | None => r0 end in
  let r2 := match hi with Some f => ir_set_finish r1 f | None => r1 end in
  ir_set_stride r2 stride.
(** indices[s1][s2]... (index_gen.hpp:53-69) *)
Fixpoint indices_of (g : index_gen) (subs : list subscript) : outcome index_gen :=
  match subs with
  | [] => Ok g
  | At i :: rest => g' <- ig_at_index g i ;; indices_of g' rest
  | Slice lo hi st :: rest => g' <- ig_at_range g (slice_range lo hi st) ;; indices_of g' rest
  end.
(** extents[range(b1,f1)][range(b2,f2)]... (extent_gen.hpp:53-57) *)
Fixpoint extents_of (g : extent_gen) (rs : list (Z * Z)) : outcome extent_gen :=
  match rs with
  | [] => Ok g
  | (b, f) :: rest => g' <- eg_at_range g (ERange b f) ;; extents_of g' rest
  end.

(** array-valued expressions: x, a named view or ref, e[i], e[indices[..][..]],
    *(e.begin() + k), *(e.rbegin() + k) *)
Inductive expr :=
| Var (x : nat) | Named (h : nat) | Sub (e : expr) (i : Z) | View_of (e : expr) (subs : list subscript)
| Row (e : expr) (k : Z) | Rev_row (e : expr) (k : nat).

(** what an expression evaluates to: a whole array (multi_array or
    multi_array_ref), a view, or a subarray; each has its own num_elements() *)
Inductive obj := OArr (c : cref) | OView (v : view) | OSub (a : nd).
Definition obj_nd (o : obj) : nd :=
  match o with OArr c => cr_nd c | OView v => v_nd v | OSub a => a end.

(** a named view (e.g. [array_view<2>::type v = a[indices[..][..]]]) or ref
    ([multi_array_ref<T,2> r(x.data(), ..)]) *)
Inductive handle := HView (v : view) | HRef (c : cref).
Definition handle_obj (h : handle) : obj :=
  match h with HView v => OView v | HRef c => OArr c end.

(** observations of an array's geometry *)
Inductive query := QDims | QShape | QBases | QStrides | QSize | QNum | QEmpty.
Inductive comparison := CEq | CNe | CLt | CGt | CLe | CGe.

(** ++ applied k times to a reverse iterator *)
Fixpoint ri_inc_n (k : nat) (r : riter) : outcome riter :=
  match k with O => Ok r | S k' => r' <- ri_inc r ;; ri_inc_n k' r' end.

Section History.
Context {T : Type}.
Variable dflt : T.
Variable eqT : T -> T -> bool.
Variable ltT : T -> T -> bool.

Inductive command :=
| NewDefault (n : nat) (aid : nat)                      (* multi_array<T,n> x(alloc) *)
| NewList (shape : list Z) (so : storage_order) (aid : nat)  (* x(shape, so, alloc) *)
| NewRanges (rs : list (Z * Z)) (so : storage_order) (aid : nat) (* x(extents[..].., so, alloc) *)
| NewCopy (y : nat)                                     (* x(y) *)
| NewFrom (e : expr) (so : storage_order) (aid : nat)   (* x(e, so, alloc) *)
| NewView (e : expr) (subs : list subscript)            (* view v = e[indices[..][..]] *)
| NewRefList (x : nat) (off : Z) (shape : list Z) (so : storage_order)   (* multi_array_ref r(x.data() + off, shape, so) *)
| NewRefRanges (x : nat) (off : Z) (rs : list (Z * Z)) (so : storage_order) (* multi_array_ref r(x.data() + off, extents[..].., so) *)
| NewRefOf (x : nat)                                    (* multi_array_ref r(x), a shallow copy *)
| NewAlias (h : nat)                                    (* view w(v), or multi_array_ref s(r) *)
| Destroy (x : nat)
| Assign (dst src : expr)                               (* dst = src *)
| AssignVar (x y : nat)                                 (* x = y, both multi_array *)
| CopyArray (dst src : expr)                            (* copy_array(src, dst) *)
| Get (e : expr) (i : list Z)                           (* read e(i) *)
| Set_ (e : expr) (i : list Z) (v : T)                  (* e(i) = v *)
| GetB (e : expr) (i : list Z)                          (* read e[i1][i2].. *)
| SetB (e : expr) (i : list Z) (v : T)                  (* e[i1][i2].. = v *)
| Fill (x : nat) (l : list T)                           (* x.assign(begin, end) *)
| FillRef (h : nat) (l : list T)                        (* r.assign(begin, end) *)
| ForEach (e : expr) (f : T -> T)                       (* for_each(e, f) *)
| Reindex (x : nat) (bases : list Z)
| ReindexAll (x : nat) (base : Z)                       (* x.reindex(base) *)
| Reshape (x : nat) (shape : list Z)
| ReindexNamed (h : nat) (bases : list Z)               (* v.reindex(bases) *)
| ReindexNamedAll (h : nat) (base : Z)                  (* v.reindex(base) *)
| ReshapeRef (h : nat) (shape : list Z)                 (* r.reshape(shape) *)
| Resize (x : nat) (rs : list (Z * Z))                  (* x.resize(extents[..]..) *)
| ResizeList (x : nat) (shape : list Z)                 (* x.resize(shape) *)
| Compare (op : comparison) (a b : expr)                (* a == b, a < b, .. *)
| Ask (q : query) (e : expr).                           (* e.shape(), e.size(), .. *)

Inductive output := ONone | OVal (v : T) | OBool (b : bool) | OInt (z : Z) | OInts (l : list Z).

Record env := Env { e_vars : list (option multi_array); e_handles : list handle }.
Definition var (en : env) (x : nat) : outcome multi_array :=
  match nth_error (e_vars en) x with Some (Some a) => Ok a | _ => UB end.
Definition named (en : env) (h : nat) : outcome handle :=
  match nth_error (e_handles en) h with Some d => Ok d | None => UB end.

Fixpoint eval (chk : bool) (en : env) (e : expr) : outcome obj :=
  match e with
  | Var x => a <- var en x ;; Ok (OArr (ma_ref a))
  | Named h => x <- named en h ;; Ok (handle_obj x)
  | Sub e i => o <- eval chk en e ;; a <- access_n chk i (obj_nd o) ;; Ok (OSub a)
  | View_of e subs =>
      o <- eval chk en e ;; ig <- indices_of indices subs ;; v <- make_view chk (obj_nd o) ig ;; Ok (OView v)
  | Row e k =>
      o <- eval chk en e ;; i <- nd_begin (obj_nd o) ;; j <- it_advance i k ;;
      a <- it_deref_n chk j ;; Ok (OSub a)
  | Rev_row e k =>
      o <- eval chk en e ;; i <- nd_rbegin (obj_nd o) ;; j <- ri_inc_n k i ;;
      a <- ri_deref_n chk j ;; Ok (OSub a)
  end.
Definition eval_nd (chk : bool) (en : env) (e : expr) : outcome nd :=
  o <- eval chk en e ;; Ok (obj_nd o).

Definition answer (q : query) (o : obj) : outcome output :=
  match q with
  | QDims => Ok (OInt (Z.of_nat (length (nd_ext (obj_nd o)))))
  | QShape => Ok (OInts (nd_ext (obj_nd o)))
  | QBases => Ok (OInts (nd_base (obj_nd o)))
  | QStrides => Ok (OInts (nd_str (obj_nd o)))
  | QSize => s <- match o with OArr c => cr_size c | OView v => v_size v | OSub a => sub_size a end ;; Ok (OInt s)
  | QNum => Ok (OInt (match o with OArr c => cr_num_elements c | OView v => v_num_elements v | OSub a => sub_num_elements a end))
  | QEmpty => b <- match o with OArr c => cr_empty c | OView v => v_empty v | OSub a => sub_empty a end ;; Ok (OBool b)
  end.

Definition declare (en : env) (a : multi_array) : env := Env (e_vars en ++ [Some a]) (e_handles en).
Definition update (en : env) (x : nat) (a : multi_array) : env := Env (set_nth x (Some a) (e_vars en)) (e_handles en).
Definition name (en : env) (h : handle) : env := Env (e_vars en) (e_handles en ++ [h]).
Definition rename (en : env) (h : nat) (d : handle) : env := Env (e_vars en) (set_nth h d (e_handles en)).

Definition compare (op : comparison) (chk : bool) (h : heap T) (a b : nd) : outcome bool :=
  let n := length (nd_ext a) in
  match op with
  | CEq => nd_eq eqT chk h n a b
  | CNe => nd_neq eqT chk h n a b
  | CLt => nd_lt ltT chk h n a b
  | CGt => nd_gt ltT chk h n a b
  | CLe => nd_le ltT chk h n a b
  | CGe => nd_ge ltT chk h n a b
  end.

Definition exec (chk : bool) (en : env) (c : command) : M T (env * output) :=
  match c with
  | NewDefault n aid => a <~ ma_default dflt chk n aid ;; ret (declare en a, ONone)
  | NewList shape so aid =>
      a <~ ma_from_list dflt chk (length shape) shape so aid ;; ret (declare en a, ONone)
  | NewRanges rs so aid =>
      g <~ lift (extents_of extents rs) ;;
      a <~ ma_from_gen dflt chk g so aid ;; ret (declare en a, ONone)
  | NewCopy y => b <~ lift (var en y) ;; a <~ ma_copy dflt b ;; ret (declare en a, ONone)
  | NewFrom e so aid =>
      x <~ lift (eval_nd chk en e) ;; a <~ ma_convert dflt chk x so aid ;; ret (declare en a, ONone)
  | NewView e subs =>
      x <~ lift (eval_nd chk en e) ;; ig <~ lift (indices_of indices subs) ;;
      v <~ lift (make_view chk x ig) ;; ret (name en (HView v), ONone)
  | NewRefList x off shape so =>
      a <~ lift (var en x) ;;
      c <~ lift (cref_from_list chk (length shape) (padd (cr_data (ma_ref a)) off) shape so) ;; ret (name en (HRef c), ONone)
  | NewRefRanges x off rs so =>
      a <~ lift (var en x) ;; g <~ lift (extents_of extents rs) ;;
      c <~ lift (cref_from_gen chk (padd (cr_data (ma_ref a)) off) g so) ;; ret (name en (HRef c), ONone)
  | NewRefOf x => a <~ lift (var en x) ;; ret (name en (HRef (cr_shallow_copy (ma_ref a))), ONone)
  | NewAlias h =>
      d <~ lift (named en h) ;;
      ret (name en (match d with HRef c => HRef (cr_shallow_copy c) | HView v => HView (v_shallow_copy v) end), ONone)
  | Destroy x =>
      a <~ lift (var en x) ;; _ <~ ma_destroy a ;; ret (Env (set_nth x None (e_vars en)) (e_handles en), ONone)
  | Assign dst src =>
      s <~ lift (eval_nd chk en src) ;; d <~ lift (eval_nd chk en dst) ;;
      _ <~ assign_nd chk (length (nd_ext d)) d s ;; ret (en, ONone)
  | AssignVar x y =>
      a <~ lift (var en x) ;; b <~ lift (var en y) ;;
      _ <~ ma_assign chk (Nat.eqb x y) a b ;; ret (en, ONone)
  | CopyArray dst src =>
      s <~ lift (eval_nd chk en src) ;; d <~ lift (eval_nd chk en dst) ;;
      _ <~ copy_array chk (length (nd_ext d)) d s ;; ret (en, ONone)
  | Get e i => a <~ lift (eval_nd chk en e) ;; v <~ get_element chk a i ;; ret (en, OVal v)
  | Set_ e i v => a <~ lift (eval_nd chk en e) ;; _ <~ set_element chk a i v ;; ret (en, ONone)
  | GetB e i => a <~ lift (eval_nd chk en e) ;; v <~ get_bracket chk a i ;; ret (en, OVal v)
  | SetB e i v => a <~ lift (eval_nd chk en e) ;; _ <~ set_bracket chk a i v ;; ret (en, ONone)
  | Fill x l => a <~ lift (var en x) ;; _ <~ cr_assign (ma_ref a) l ;; ret (en, ONone)
  | FillRef h l =>
      d <~ lift (named en h) ;;
      match d with
      | HRef c => _ <~ cr_assign c l ;; ret (en, ONone)
      | HView _ => fun _ => Undef          (* views have no assign(begin, end) *)
      end
  | ForEach e f =>
      a <~ lift (eval_nd chk en e) ;; _ <~ for_each chk f (length (nd_ext a)) a ;; ret (en, ONone)
  | Reindex x bases =>
      a <~ lift (var en x) ;; a' <~ lift (ma_reindex a bases) ;; ret (update en x a', ONone)
  | ReindexAll x b =>
      a <~ lift (var en x) ;; a' <~ lift (ma_reindex1 a b) ;; ret (update en x a', ONone)
  | Reshape x shape =>
      a <~ lift (var en x) ;; a' <~ lift (ma_reshape chk a shape) ;; ret (update en x a', ONone)
  | ReindexNamed h bases =>
      d <~ lift (named en h) ;;
      match d with
      | HRef c => c' <~ lift (cr_reindex c bases) ;; ret (rename en h (HRef c'), ONone)
      | HView v => v' <~ lift (v_reindex v bases) ;; ret (rename en h (HView v'), ONone)
      end
  | ReindexNamedAll h b =>
      d <~ lift (named en h) ;;
      match d with
      | HRef c => c' <~ lift (cr_reindex1 c b) ;; ret (rename en h (HRef c'), ONone)
      | HView v => v' <~ lift (v_reindex1 v b) ;; ret (rename en h (HView v'), ONone)
      end
  | ReshapeRef h shape =>
      d <~ lift (named en h) ;;
      match d with
      | HRef c => c' <~ lift (cr_reshape chk c shape) ;; ret (rename en h (HRef c'), ONone)
      | HView _ => fun _ => Undef          (* views have no reshape *)
      end
  | Resize x rs =>
      a <~ lift (var en x) ;; g <~ lift (extents_of extents rs) ;;
      a' <~ ma_resize dflt chk a g ;; ret (update en x a', ONone)
  | ResizeList x shape =>
      a <~ lift (var en x) ;;
      a' <~ ma_resize_list dflt chk a shape ;; ret (update en x a', ONone)
  | Compare op a b =>
      x <~ lift (eval_nd chk en a) ;; y <~ lift (eval_nd chk en b) ;;
      fun w => (r <~ lift (compare op chk (w_heap w) x y) ;; ret (en, OBool r)) w
  | Ask q e => o <~ lift (eval chk en e) ;; r <~ lift (answer q o) ;; ret (en, r)
  end.

(** a program: the commands in order, collecting the outputs *)
Fixpoint run (chk : bool) (en : env) (p : list command) : M T (env * list output) :=
  match p with
  | [] => ret (en, [])
  | c :: rest =>
      r <~ exec chk en c ;;
      q <~ run chk (fst r) rest ;;
      ret (fst q, snd r :: snd q)
  end.

(** a program in which every command is wrapped in try { .. } catch (...) { }:
    each command comes with the number of the operation inside it that throws, if
    any; None in the outputs marks a command that ended with an exception *)
Fixpoint run_catching (chk : bool) (en : env) (p : list (command * option nat)) (h : heap T)
  : res T (env * list (option output)) :=
  match p with
  | [] => Done (en, []) (World h None)
  | (c, f) :: rest =>
      match exec chk en c (World h f) with
      | Done (en', o) w =>
          match run_catching chk en' rest (w_heap w) with
          | Done (en2, os) w2 => Done (en2, Some o :: os) w2
          | r => r
          end
      | Thrown w =>
          match run_catching chk en rest (w_heap w) with
          | Done (en2, os) w2 => Done (en2, None :: os) w2
          | r => r
          end
      | Aborted w => Aborted w
      | Undef => Undef
      | OutOfFuel => OutOfFuel
      end
  end.

(** the same in a build whose assertion handler throws, as test/assert.cpp 19-37
    does (BOOST_ENABLE_ASSERT_HANDLER with an assertion_failed that throws), and
    that also catches those exceptions: a command ended by a failed assertion
    leaves the memory as it is at that point, and the next command runs.
    Simplification: as for [Aborted] everywhere, no clean-up code runs between
    the failed assertion and the end of the command; the theorems use it only for
    assertions that fail before the command has obtained or changed anything *)
Fixpoint run_handled (chk : bool) (en : env) (p : list (command * option nat)) (h : heap T)
  : res T (env * list (option output)) :=
  match p with
  | [] => Done (en, []) (World h None)
  | (c, f) :: rest =>
      match exec chk en c (World h f) with
      | Done (en', o) w =>
          match run_handled chk en' rest (w_heap w) with
          | Done (en2, os) w2 => Done (en2, Some o :: os) w2
          | r => r
          end
      | Thrown w | Aborted w =>
          match run_handled chk en rest (w_heap w) with
          | Done (en2, os) w2 => Done (en2, None :: os) w2
          | r => r
          end
      | Undef => Undef
      | OutOfFuel => OutOfFuel
      end
  end.

End History.
