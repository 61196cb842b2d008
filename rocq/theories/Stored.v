(** Stored.v -- client programs that also keep subarrays and iterators in
    variables.

    A kept sub_array or array_iterator holds a T* and raw pointers into the
    extent, stride and index base lists of the array, view or ref it came from
    (subarray.hpp:186-189, iterator.hpp:83-87; see Handles.v).  Whatever it is
    used for is computed from those lists as they are at the moment of use.
    (Simplification: moving or comparing a kept iterator counts as using it; after
    the end of its parent the model calls that undefined.) *)

From Verif Require Import Base StorageOrder Ranges Layout Access Objects Memory Ops MultiArray History.

(** whose lists a kept object points into: a multi_array variable, a named view
    or ref, or a view that was a temporary and is gone *)
Inductive parent := PVar (x : nat) | PNamed (h : nat) | PGone.
(** a sub_array, an iterator at position i, a reverse iterator whose base iterator
    is at position i *)
Inductive kind := IsSub | IsIter (i : Z) | IsRev (i : Z).
(** subarray.hpp:186-189, iterator.hpp:83-87: base_, and by how many entries the
    three pointers point past the start of the parent's lists; idx_ *)
Record kept := Kept { k_parent : parent; k_depth : nat; k_base : ptr; k_kind : kind }.

Record kenv := KEnv { ke_env : env; ke_kept : list kept }.

Definition parent_nd (en : env) (p : parent) : outcome nd :=
  match p with
  | PVar x => a <- var en x ;; Ok (cr_nd (ma_ref a))
  | PNamed h => d <- named en h ;; Ok (obj_nd (handle_obj d))
  | PGone => UB
  end.
(** the geometry seen through the kept pointers now (subarray.hpp:159-167) *)
Definition kept_nd (en : env) (k : kept) : outcome nd :=
  a <- parent_nd en (k_parent k) ;;
  Ok (ND (k_base k) (skipn (k_depth k) (nd_ext a)) (skipn (k_depth k) (nd_str a)) (skipn (k_depth k) (nd_base a))).
Definition kept_at (ke : kenv) (k : nat) : outcome kept :=
  match nth_error (ke_kept ke) k with Some o => Ok o | None => UB end.

(** the kept iterator as an iterator object now (iterator.hpp:83-87) *)
Definition iter_of (a : nd) (i : Z) : iter := Iter i (nd_org a) (nd_ext a) (nd_str a) (nd_base a).

(** array-valued expressions over variables, names and kept objects: a variable, a
    named view or ref, a kept subarray, *it, it[n], e[i], e[indices[..]],
    *(e.begin()+k), *(e.rbegin()+k) *)
Inductive kexpr :=
| XVar (x : nat) | XNamed (h : nat) | XKept (k : nat) | XDeref (k : nat) | XIndex (k : nat) (n : Z)
| XSub (e : kexpr) (i : Z) | XView (e : kexpr) (subs : list subscript)
| XRow (e : kexpr) (n : Z) | XRev_row (e : kexpr) (n : nat).

Fixpoint keval (chk : bool) (ke : kenv) (e : kexpr) : outcome obj :=
  match e with
  | XVar x => eval chk (ke_env ke) (Var x)
  | XNamed h => eval chk (ke_env ke) (Named h)
  | XKept k =>
      o <- kept_at ke k ;; a <- kept_nd (ke_env ke) o ;;
      match k_kind o with IsSub => Ok (OSub a) | _ => UB end
  | XDeref k =>           (* iterator.hpp:120-129 *)
      o <- kept_at ke k ;; a <- kept_nd (ke_env ke) o ;;
      match k_kind o with
      | IsIter i => b <- it_deref_n chk (iter_of a i) ;; Ok (OSub b)
      | IsRev i => b <- ri_deref_n chk (RIter (iter_of a i)) ;; Ok (OSub b)
      | IsSub => UB
      end
  | XIndex k n =>         (* boost::iterator_facade: it[n] is *(it + n) *)
      o <- kept_at ke k ;; a <- kept_nd (ke_env ke) o ;;
      match k_kind o with
      | IsIter i => b <- it_index_n chk (iter_of a i) n ;; Ok (OSub b)
      | IsRev i => r <- ri_advance (RIter (iter_of a i)) n ;; b <- ri_deref_n chk r ;; Ok (OSub b)
      | IsSub => UB
      end
  | XSub e i => o <- keval chk ke e ;; a <- access_n chk i (obj_nd o) ;; Ok (OSub a)
  | XView e subs =>
      o <- keval chk ke e ;; ig <- indices_of indices subs ;; v <- make_view chk (obj_nd o) ig ;; Ok (OView v)
  | XRow e k =>
      o <- keval chk ke e ;; i <- nd_begin (obj_nd o) ;; j <- it_advance i k ;;
      a <- it_deref_n chk j ;; Ok (OSub a)
  | XRev_row e k =>
      o <- keval chk ke e ;; i <- nd_rbegin (obj_nd o) ;; j <- ri_inc_n k i ;;
      a <- ri_deref_n chk j ;; Ok (OSub a)
  end.
Definition keval_nd (chk : bool) (ke : kenv) (e : kexpr) : outcome nd :=
  o <- keval chk ke e ;; Ok (obj_nd o).

(** whose lists the value of an expression points into, and how deep
    (base.hpp:129-141 passes extents+1, strides+1, index_bases+1 on; a view has
    lists of its own, and an unnamed one dies at the end of the full expression) *)
Fixpoint lists_of (ke : kenv) (e : kexpr) : parent * nat :=
  match e with
  | XVar x => (PVar x, 0%nat)
  | XNamed h => (PNamed h, 0%nat)
  | XKept k => match nth_error (ke_kept ke) k with Some o => (k_parent o, k_depth o) | None => (PGone, 0%nat) end
  | XDeref k | XIndex k _ =>
      match nth_error (ke_kept ke) k with Some o => (k_parent o, S (k_depth o)) | None => (PGone, 0%nat) end
  | XSub e _ | XRow e _ | XRev_row e _ => (fst (lists_of ke e), S (snd (lists_of ke e)))
  | XView _ _ => (PGone, 0%nat)
  end.

Section Stored.
Context {T : Type}.
Variable dflt : T.
Variable eqT : T -> T -> bool.
Variable ltT : T -> T -> bool.

Inductive edge := EBegin | EEnd | ERBegin | EREnd.

Inductive kcommand :=
| XDo (c : @command T)                           (* a command without kept objects *)
| XKeep (e : kexpr)                              (* auto s = e;  for a subarray e *)
| XStart (w : edge) (e : kexpr)                  (* auto it = e.begin(), e.end(), e.rbegin(), e.rend() *)
| XMove (k : nat) (n : Z)                        (* it += n *)
| XCopyOf (k : nat)                              (* auto other = kept object *)
| XSame (j k : nat)                              (* it1 == it2 *)
| XDistance (j k : nat)                          (* it2 - it1 *)
| XRead (k : nat)                                (* x = *it, one dimension *)
| XWrite (k : nat) (v : T)                       (* *it = v, one dimension *)
| XNewFrom (e : kexpr) (so : storage_order) (aid : nat)
| XNewView (e : kexpr) (subs : list subscript)
| XAssign (dst src : kexpr)
| XCopyArray (dst src : kexpr)
| XGet (e : kexpr) (i : list Z)
| XSet (e : kexpr) (i : list Z) (v : T)
| XGetB (e : kexpr) (i : list Z)
| XSetB (e : kexpr) (i : list Z) (v : T)
| XForEach (e : kexpr) (f : T -> T)
| XCompare (op : comparison) (a b : kexpr)
| XAsk (q : query) (e : kexpr).

Definition keep (ke : kenv) (o : kept) : kenv := KEnv (ke_env ke) (ke_kept ke ++ [o]).
Definition with_env (ke : kenv) (en : env) : kenv := KEnv en (ke_kept ke).

(** e.begin() and the others (multi_array_ref.hpp:243-259, subarray.hpp:137-153,
    view.hpp:152-168) *)
Definition start (w : edge) (a : nd) : outcome kind :=
  match w with
  | EBegin => i <- nd_begin a ;; Ok (IsIter (it_idx i))
  | EEnd => i <- nd_end a ;; Ok (IsIter (it_idx i))
  | ERBegin => i <- nd_rbegin a ;; Ok (IsRev (it_idx (ri_base i)))
  | EREnd => i <- nd_rend a ;; Ok (IsRev (it_idx (ri_base i)))
  end.
(** it += n (iterator.hpp:147-150; boost::reverse_iterator) *)
Definition moved_kind (a : nd) (o : kind) (n : Z) : outcome kind :=
  match o with
  | IsIter i => j <- it_advance (iter_of a i) n ;; Ok (IsIter (it_idx j))
  | IsRev i => j <- ri_advance (RIter (iter_of a i)) n ;; Ok (IsRev (it_idx (ri_base j)))
  | IsSub => UB
  end.
(** *it for one dimension (iterator.hpp:120-129) *)
Definition pointee (chk : bool) (a : nd) (o : kind) : outcome ptr :=
  match o with
  | IsIter i => it_deref_one chk (iter_of a i)
  | IsRev i => ri_deref_one chk (RIter (iter_of a i))
  | IsSub => UB
  end.

Definition kexec (chk : bool) (ke : kenv) (c : kcommand) : M T (kenv * @output T) :=
  match c with
  | XDo c => r <~ exec dflt eqT ltT chk (ke_env ke) c ;; ret (with_env ke (fst r), snd r)
  | XKeep e =>
      o <~ lift (keval chk ke e) ;;
      match o with
      | OSub a => ret (keep ke (Kept (fst (lists_of ke e)) (snd (lists_of ke e)) (nd_org a) IsSub), ONone)
      | _ => fun _ => Undef           (* not a subarray *)
      end
  | XStart w e =>
      o <~ lift (keval chk ke e) ;; s <~ lift (start w (obj_nd o)) ;;
      ret (keep ke (Kept (fst (lists_of ke e)) (snd (lists_of ke e)) (nd_org (obj_nd o)) s), ONone)
  | XMove k n =>
      o <~ lift (kept_at ke k) ;; a <~ lift (kept_nd (ke_env ke) o) ;; s <~ lift (moved_kind a (k_kind o) n) ;;
      ret (KEnv (ke_env ke) (set_nth k (Kept (k_parent o) (k_depth o) (k_base o) s) (ke_kept ke)), ONone)
  | XCopyOf k => o <~ lift (kept_at ke k) ;; ret (keep ke o, ONone)
  | XSame j k =>
      o <~ lift (kept_at ke j) ;; a <~ lift (kept_nd (ke_env ke) o) ;;
      p <~ lift (kept_at ke k) ;; b <~ lift (kept_nd (ke_env ke) p) ;;
      match k_kind o, k_kind p with
      | IsIter m, IsIter n => ret (ke, OBool (it_equal (iter_of a m) (iter_of b n)))
      | IsRev m, IsRev n => ret (ke, OBool (ri_equal (RIter (iter_of a m)) (RIter (iter_of b n))))
      | _, _ => fun _ => Undef
      end
  | XDistance j k =>
      o <~ lift (kept_at ke j) ;; a <~ lift (kept_nd (ke_env ke) o) ;;
      p <~ lift (kept_at ke k) ;; b <~ lift (kept_nd (ke_env ke) p) ;;
      match k_kind o, k_kind p with
      | IsIter m, IsIter n => d <~ lift (it_distance (iter_of a m) (iter_of b n)) ;; ret (ke, OInt d)
      | IsRev m, IsRev n => d <~ lift (ri_distance (RIter (iter_of a m)) (RIter (iter_of b n))) ;; ret (ke, OInt d)
      | _, _ => fun _ => Undef
      end
  | XRead k =>
      o <~ lift (kept_at ke k) ;; a <~ lift (kept_nd (ke_env ke) o) ;;
      p <~ lift (pointee chk a (k_kind o)) ;; v <~ load p ;; ret (ke, OVal v)
  | XWrite k v =>
      o <~ lift (kept_at ke k) ;; a <~ lift (kept_nd (ke_env ke) o) ;;
      p <~ lift (pointee chk a (k_kind o)) ;; _ <~ tick ;; _ <~ store p v ;; ret (ke, ONone)
  | XNewFrom e so aid =>
      x <~ lift (keval_nd chk ke e) ;; a <~ ma_convert dflt chk x so aid ;;
      ret (with_env ke (declare (ke_env ke) a), ONone)
  | XNewView e subs =>
      x <~ lift (keval_nd chk ke e) ;; ig <~ lift (indices_of indices subs) ;;
      v <~ lift (make_view chk x ig) ;; ret (with_env ke (name (ke_env ke) (HView v)), ONone)
  | XAssign dst src =>
      s <~ lift (keval_nd chk ke src) ;; d <~ lift (keval_nd chk ke dst) ;;
      _ <~ assign_nd chk (length (nd_ext d)) d s ;; ret (ke, ONone)
  | XCopyArray dst src =>
      s <~ lift (keval_nd chk ke src) ;; d <~ lift (keval_nd chk ke dst) ;;
      _ <~ copy_array chk (length (nd_ext d)) d s ;; ret (ke, ONone)
  | XGet e i => a <~ lift (keval_nd chk ke e) ;; v <~ get_element chk a i ;; ret (ke, OVal v)
  | XSet e i v => a <~ lift (keval_nd chk ke e) ;; _ <~ set_element chk a i v ;; ret (ke, ONone)
  | XGetB e i => a <~ lift (keval_nd chk ke e) ;; v <~ get_bracket chk a i ;; ret (ke, OVal v)
  | XSetB e i v => a <~ lift (keval_nd chk ke e) ;; _ <~ set_bracket chk a i v ;; ret (ke, ONone)
  | XForEach e f =>
      a <~ lift (keval_nd chk ke e) ;; _ <~ for_each chk f (length (nd_ext a)) a ;; ret (ke, ONone)
  | XCompare op a b =>
      x <~ lift (keval_nd chk ke a) ;; y <~ lift (keval_nd chk ke b) ;;
      fun w => (r <~ lift (compare eqT ltT op chk (w_heap w) x y) ;; ret (ke, OBool r)) w
  | XAsk q e => o <~ lift (keval chk ke e) ;; r <~ lift (answer q o) ;; ret (ke, r)
  end.

(** a program in which every command is wrapped in try { .. } catch (...) { } (see
    run_catching in History.v), for any machine with states [S] and commands [C] *)
Fixpoint run_steps {S C : Type} (step : S -> C -> M T (S * @output T)) (s : S) (p : list (C * option nat))
    (h : heap T) : res T (S * list (option (@output T))) :=
  match p with
  | [] => Done (s, []) (World h None)
  | (c, f) :: rest =>
      match step s c (World h f) with
      | Done (s', o) w =>
          match run_steps step s' rest (w_heap w) with
          | Done (s2, os) w2 => Done (s2, Some o :: os) w2
          | r => r
          end
      | Thrown w =>
          match run_steps step s rest (w_heap w) with
          | Done (s2, os) w2 => Done (s2, None :: os) w2
          | r => r
          end
      | Aborted w => Aborted w
      | Undef => Undef
      | OutOfFuel => OutOfFuel
      end
  end.
End Stored.
