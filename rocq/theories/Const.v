(** Const.v -- const and non-const access: the overload sets of the array
    classes, and programs over const and non-const array handles.

    The rest of the model has one function for the const and the non-const
    version of a member, because their code is the same.  Which version a program
    gets, and whether it compiles, is decided by the types; this file models that
    part: for every class the declared overloads (is the member const, what does it
    return), C++'s choice between them, and the conversions and copy constructors
    between the classes. *)

From Coq Require Import ZArith List Bool Arith.
From Verif Require Import Base StorageOrder Ranges Layout Access Objects Memory Ops MultiArray.
Import ListNotations.

(** * Types *)

(** T* and T const* *)
Inductive pointer := PMut | PConst.

(** implicit conversion between them: only towards const *)
Definition ptr_converts (from to : pointer) : bool :=
  match from, to with PConst, PMut => false | _, _ => true end.

(** the array class templates; the const_* ones have the parameter TPtr *)
Inductive klass :=
| KMultiArray                     (* multi_array<T,N,A>             multi_array.hpp:119-123 *)
| KRef                            (* multi_array_ref<T,N>           multi_array_ref.hpp:411-413 *)
| KConstRef (p : pointer)         (* const_multi_array_ref<T,N,p>   multi_array_ref.hpp:41-45 *)
| KSub                            (* sub_array<T,N>                 subarray.hpp:201-202 *)
| KConstSub (p : pointer)         (* const_sub_array<T,N,p>         subarray.hpp:38-40 *)
| KView                           (* multi_array_view<T,N>          view.hpp:263-265 *)
| KConstView (p : pointer).       (* const_multi_array_view<T,N,p>  view.hpp:40-42 *)

(** types of expressions.  [const] says whether the object or element is
    const-qualified; a temporary returned by value is not.  const-qualification of
    an iterator or pointer object itself is left out: all their accessing members
    are const (iterator.hpp:112-129). *)
Inductive typ :=
| TObj (c : klass) (n : nat) (const : bool)
| TIter (p : pointer) (n : nat)   (* iterator / const_iterator, base.hpp:278-286 *)
| TRev (p : pointer) (n : nat)    (* reverse_iterator / const_reverse_iterator, base.hpp:288-289 *)
| TElem (const : bool)            (* T& / T const& *)
| TPtr (p : pointer).

(** base.hpp:124 (N > 1), 164 (N = 1): typedef reference *)
Definition reference (n : nat) : option typ :=
  match n with
  | O => None
  | S O => Some (TElem false)
  | S m => Some (TObj KSub m false)
  end.
(** base.hpp:125 (N > 1), 165 (N = 1): typedef const_reference *)
Definition const_reference (n : nat) : option typ :=
  match n with
  | O => None
  | S O => Some (TElem true)
  | S m => Some (TObj (KConstSub PConst) m false)
  end.

(** the pointer an object of this type is built from: the constructors'
    parameter (subarray.hpp:178,358, view.hpp:229,431, iterator.hpp:97), or the
    pointer dereferenced to bind a reference (base.hpp:179) *)
Definition needs_pointer (t : typ) : pointer :=
  match t with
  | TObj KMultiArray _ _ | TObj KRef _ _ | TObj KSub _ _ | TObj KView _ _ => PMut
  | TObj (KConstRef p) _ _ | TObj (KConstSub p) _ _ | TObj (KConstView p) _ _ => p
  | TIter p _ | TRev p _ | TPtr p => p
  | TElem c => if c then PConst else PMut
  end.

(** a member function body [return R(p, ...)] or [return *p]: compiles when p
    converts to the pointer R needs (base.hpp:129-141, 169-180, 299-331,
    generate_array_view's return statement) *)
Definition built_from (r : option typ) (p : pointer) : option typ :=
  match r with
  | Some t => if ptr_converts p (needs_pointer t) then Some t else None
  | None => None
  end.

(** * Members *)

Inductive member :=
| MIndex (i : Z)             (* a[i] *)
| MCall (idx : list Z)       (* a(idx) *)
| MSlice (g : index_gen)     (* a[ indices[..]..[..] ] *)
| MBegin | MEnd | MRbegin | MRend
| MOrigin | MData.

(** one overload: is it a const member function; the type of its result, [None]
    if its body does not compile *)
Definition overload : Type := (bool * option typ)%type.
Definition mutable_fn (r : option typ) : overload := (false, r).
Definition const_fn (r : option typ) : overload := (true, r).

(** overload resolution on the implicit object argument: a const object can only
    use const members; a non-const one prefers the non-const overload *)
Definition pick (const : bool) (l : list overload) : option typ :=
  let const_one := match find fst l with Some (_, r) => r | None => None end in
  if const then const_one
  else match find (fun o => negb (fst o)) l with
       | Some (_, r) => r
       | None => const_one
       end.

(** a[ indices ... ] needs index_gen<NumDims,NDims>; the result has NDims dimensions *)
Definition slice (view : klass) (n : nat) (g : index_gen) : option typ :=
  if Nat.eqb (ig_num g) n then Some (TObj view (ig_dims g) false) else None.

(** multi_array_ref.hpp:197-259 *)
Definition const_multi_array_ref_members (tptr : pointer) (n : nat) (m : member) : list overload :=
  let origin := PConst in                                               (* 197 const element* origin() const *)
  match m with
  | MOrigin => [const_fn (built_from (Some (TPtr PConst)) tptr)]        (* 197 *)
  | MData => [const_fn (built_from (Some (TPtr PConst)) tptr)]          (* 198 *)
  | MCall _ => [const_fn (built_from (Some (TElem true)) origin)]       (* 211-218 *)
  | MIndex _ => [const_fn (built_from (const_reference n) origin)]      (* 221-225 *)
  | MSlice g => [const_fn (built_from (slice (KConstView PConst) n g) origin)]  (* 228-241 *)
  | MBegin | MEnd => [const_fn (built_from (Some (TIter PConst n)) origin)]     (* 243-251 *)
  | MRbegin | MRend => [const_fn (built_from (Some (TRev PConst n)) origin)]    (* 253-259 *)
  end.

(** multi_array_ref.hpp:504-608 *)
Definition multi_array_ref_members (n : nat) (m : member) : list overload :=
  let base_class := pick true (const_multi_array_ref_members PMut n m) in
  let origin := PMut in                                                 (* 504 element* origin() *)
  let origin_c := PConst in                                             (* 568 const element* origin() const *)
  match m with
  | MOrigin => [mutable_fn (built_from (Some (TPtr PMut)) PMut); const_fn base_class]       (* 504, 568 *)
  | MData => [mutable_fn (built_from (Some (TPtr PMut)) PMut); const_fn base_class]         (* 506, 569 *)
  | MCall _ => [mutable_fn (built_from (Some (TElem false)) origin); const_fn base_class]   (* 508-516, 571-576 *)
  | MIndex _ => [mutable_fn (built_from (reference n) origin);                              (* 519-524 *)
                 const_fn (built_from (const_reference n) origin_c)]                        (* 578-583 *)
  | MSlice g => [mutable_fn (built_from (slice KView n g) origin); const_fn base_class]     (* 528-540, 586-592 *)
  | MBegin | MEnd => [mutable_fn (built_from (Some (TIter PMut n)) origin); const_fn base_class]   (* 543-552, 594-600 *)
  | MRbegin | MRend => [mutable_fn (built_from (Some (TRev PMut n)) origin); const_fn base_class]  (* 555-563, 602-608 *)
  end.

(** subarray.hpp:75-159 *)
Definition const_sub_array_members (tptr : pointer) (n : nat) (m : member) : list overload :=
  let origin := tptr in                                                 (* 155 TPtr origin() const *)
  match m with
  | MOrigin => [const_fn (built_from (Some (TPtr tptr)) tptr)]          (* 155 *)
  | MData => []
  | MIndex _ => [const_fn (built_from (const_reference n) tptr)]        (* 75-78, passes base_ *)
  | MCall _ => [const_fn (built_from (Some (TElem true)) origin)]       (* 80-87 *)
  | MSlice g => [const_fn (built_from (slice (KConstView PConst) n g) tptr)]    (* 90-103, passes base_ *)
  | MBegin | MEnd => [const_fn (built_from (Some (TIter PConst n)) origin)]     (* 137-145 *)
  | MRbegin | MRend => [const_fn (built_from (Some (TRev PConst n)) origin)]    (* 147-153 *)
  end.

(** subarray.hpp:256-349 *)
Definition sub_array_members (n : nat) (m : member) : list overload :=
  let base_class := pick true (const_sub_array_members PMut n m) in
  let origin := PMut in                                                 (* 256 T* origin() *)
  match m with
  | MOrigin => [mutable_fn (built_from (Some (TPtr PMut)) PMut);
                const_fn (built_from (Some (TPtr PConst)) PMut)]                            (* 256, 257 *)
  | MData => []
  | MIndex _ => [mutable_fn (built_from (reference n) PMut); const_fn base_class]           (* 259-263, 322-324 *)
  | MSlice g => [mutable_fn (built_from (slice KView n g) origin); const_fn base_class]     (* 266-278, 327-333 *)
  | MCall _ => [mutable_fn (built_from (Some (TElem false)) origin); const_fn base_class]   (* 280-288, 315-320 *)
  | MBegin | MEnd => [mutable_fn (built_from (Some (TIter PMut n)) origin); const_fn base_class]   (* 290-298, 335-341 *)
  | MRbegin | MRend => [mutable_fn (built_from (Some (TRev PMut n)) origin); const_fn base_class]  (* 301-309, 343-349 *)
  end.

(** view.hpp:112-168 *)
Definition const_multi_array_view_members (tptr : pointer) (n : nat) (m : member) : list overload :=
  let origin := PConst in                                               (* 112 const T* origin() const *)
  match m with
  | MOrigin => [const_fn (built_from (Some (TPtr PConst)) tptr)]        (* 112 *)
  | MData => []
  | MCall _ => [const_fn (built_from (Some (TElem true)) origin)]       (* 120-127 *)
  | MIndex _ => [const_fn (built_from (const_reference n) origin)]      (* 130-135 *)
  | MSlice g => [const_fn (built_from (slice (KConstView PConst) n g) origin)]  (* 138-151 *)
  | MBegin | MEnd => [const_fn (built_from (Some (TIter PConst n)) origin)]     (* 152-160 *)
  | MRbegin | MRend => [const_fn (built_from (Some (TRev PConst n)) origin)]    (* 162-168 *)
  end.

(** view.hpp:323-419 *)
Definition multi_array_view_members (n : nat) (m : member) : list overload :=
  let base_class := pick true (const_multi_array_view_members PMut n m) in
  let origin := PMut in                                                 (* 323 element* origin() *)
  match m with
  | MOrigin => [mutable_fn (built_from (Some (TPtr PMut)) PMut); const_fn base_class]       (* 323, 383 *)
  | MData => []
  | MCall _ => [mutable_fn (built_from (Some (TElem false)) origin); const_fn base_class]   (* 325-333, 385-390 *)
  | MIndex _ => [mutable_fn (built_from (reference n) origin); const_fn base_class]         (* 336-341, 392-394 *)
  | MSlice g => [mutable_fn (built_from (slice KView n g) origin); const_fn base_class]     (* 345-357, 397-403 *)
  | MBegin | MEnd => [mutable_fn (built_from (Some (TIter PMut n)) origin); const_fn base_class]   (* 360-370, 405-411 *)
  | MRbegin | MRend => [mutable_fn (built_from (Some (TRev PMut n)) origin); const_fn base_class]  (* 372-378, 413-419 *)
  end.

(** the overloads a class itself declares; multi_array (multi_array.hpp:119-567)
    declares none of these members *)
Definition declared (c : klass) (n : nat) (m : member) : list overload :=
  match c with
  | KMultiArray => []
  | KRef => multi_array_ref_members n m
  | KConstRef p => const_multi_array_ref_members p n m
  | KSub => sub_array_members n m
  | KConstSub p => const_sub_array_members p n m
  | KView => multi_array_view_members n m
  | KConstView p => const_multi_array_view_members p n m
  end.

(** the public array base class: multi_array.hpp:122, multi_array_ref.hpp:413,
    subarray.hpp:202, view.hpp:265 *)
Definition base_of (c : klass) : option klass :=
  match c with
  | KMultiArray => Some KRef
  | KRef => Some (KConstRef PMut)
  | KSub => Some (KConstSub PMut)
  | KView => Some (KConstView PMut)
  | _ => None
  end.

(** a class followed by its bases, most derived first *)
Definition lineage (c : klass) : list klass :=
  match base_of c with
  | None => [c]
  | Some b => match base_of b with None => [c; b] | Some b' => [c; b; b'] end
  end.

(** name lookup: the first class that declares the name hides the others *)
Fixpoint first_declared (cs : list klass) (n : nat) (m : member) : list overload :=
  match cs with
  | [] => []
  | c :: rest => match declared c n m with [] => first_declared rest n m | l => l end
  end.

(** the type of [x.m] where x is a (const) object of class c *)
Definition member_type (c : klass) (n : nat) (const : bool) (m : member) : option typ :=
  pick const (first_declared (lineage c) n m).

(** * Copies and conversions *)

(** can an object of class [to] be constructed as a handle to the same elements
    from an object of class [from] (const or not: every one of these constructors
    takes a reference to const)?
    - the implicit copy constructors (subarray.hpp:65 "Allow default copy
      constructor as well"; multi_array_ref and multi_array_view have one too),
      also from a derived class;
    - the templates const_*(const const_*<T,N,OPtr>&), multi_array_ref.hpp:78-86,
      subarray.hpp:67-71, view.hpp:66-73: base_(other.base_).
    A multi_array constructed from another array is a deep copy (multi_array.hpp:
    229-418) and not a handle to the same elements; see [CNew]. *)
Definition copies_to (from to : klass) : bool :=
  match to with
  | KMultiArray => false
  | KRef => match from with KMultiArray | KRef => true | _ => false end
  | KConstRef p => match from with
                   | KMultiArray | KRef => ptr_converts PMut p
                   | KConstRef q => ptr_converts q p
                   | _ => false end
  | KSub => match from with KSub => true | _ => false end
  | KConstSub p => match from with
                   | KSub => ptr_converts PMut p
                   | KConstSub q => ptr_converts q p
                   | _ => false end
  | KView => match from with KView => true | _ => false end
  | KConstView p => match from with
                    | KView => ptr_converts PMut p
                    | KConstView q => ptr_converts q p
                    | _ => false end
  end.

(** * Expressions *)

(** what can be done with an expression to get at its elements *)
Inductive op :=
| OMember (m : member)
| ODeref                    (* *it, *rit, *p *)
| OSubscript (k : Z)        (* it[k], rit[k], p[k] *)
| OArrow                    (* it-> *)
| OMove (k : Z)             (* it + k, rit + k, p + k (and ++, --) *)
| OBase                     (* rit.base() *)
| OReverse                  (* reverse_iterator(it) *)
| OAddress                  (* &e for an element *)
| OConst                    (* binding to a reference to const *)
| OUpcast                   (* binding to a reference to the base class *)
| OCopy (c : klass)         (* c y(x); a new handle *)
| OConvert (p : pointer).   (* iterator -> const_iterator, T* -> T const* ... *)

(** typedef reference of an iterator: base.hpp:278-286 *)
Definition iter_reference (p : pointer) (n : nat) : option typ :=
  match p with PMut => reference n | PConst => const_reference n end.

(** type of the expression [o] applied to an expression of type [t]; [None] if
    the compiler rejects it *)
Definition op_type (t : typ) (o : op) : option typ :=
  match o, t with
  | OMember m, TObj c n k => member_type c n k m
  (* iterator.hpp:120-129 dereference: accessor::access(type<reference>, idx_, base_, ..) *)
  | ODeref, TIter p n | ODeref, TRev p n => built_from (iter_reference p n) p
  | ODeref, TPtr p => built_from (Some (TElem (match p with PMut => false | PConst => true end))) p
  (* iterator_facade: it[k] is a proxy for *(it + k) *)
  | OSubscript _, TIter p n | OSubscript _, TRev p n => built_from (iter_reference p n) p
  | OSubscript _, TPtr p => built_from (Some (TElem (match p with PMut => false | PConst => true end))) p
  (* iterator.hpp:35-44,112-117 operator_arrow_proxy<reference>: T* operator->() is
     ill-formed when reference is an lvalue reference (N = 1) *)
  | OArrow, TIter p (S (S m)) => built_from (iter_reference p (S (S m))) p
  | OMove _, TIter _ _ | OMove _, TRev _ _ | OMove _, TPtr _ => Some t
  | OBase, TRev p n => Some (TIter p n)
  | OReverse, TIter p n => Some (TRev p n)
  | OAddress, TElem k => Some (TPtr (if k then PConst else PMut))
  | OConst, TObj c n _ => Some (TObj c n true)
  | OConst, TElem _ => Some (TElem true)
  | OUpcast, TObj c n k => match base_of c with Some b => Some (TObj b n k) | None => None end
  | OCopy c', TObj c n _ => if copies_to c c' then Some (TObj c' n false) else None
  (* iterator.hpp:103-109 enable_if_convertible<OPtr,TPtr> *)
  | OConvert q, TIter p n => if ptr_converts p q then Some (TIter q n) else None
  | OConvert q, TRev p n => if ptr_converts p q then Some (TRev q n) else None
  | OConvert q, TPtr p => if ptr_converts p q then Some (TPtr q) else None
  | _, _ => None
  end.

(** a chain of such steps *)
Fixpoint chain_type (t : typ) (p : list op) : option typ :=
  match p with
  | [] => Some t
  | o :: rest => match op_type t o with Some t' => chain_type t' rest | None => None end
  end.

(** * Modifying operations *)

Inductive modifier :=
| WElement       (* e = v on an element *)
| WArray         (* a = b *)
| WRange         (* a.assign(first, last) *)
| WResize        (* a.resize(...) *)
| WReindex       (* a.reindex(...) *)
| WReshape.      (* a.reshape(...) *)

(** the modifying members a class declares: (is it const, does a call from
    outside compile).  The const_* classes declare operator= private
    (multi_array_ref.hpp:358-360, subarray.hpp:190-192, view.hpp:257-259). *)
Definition declared_modifier (c : klass) (w : modifier) : list (bool * bool) :=
  match c, w with
  | KMultiArray, WArray => [(false, true)]                    (* multi_array.hpp:420-432 *)
  | KMultiArray, WResize => [(false, true)]                   (* multi_array.hpp:435-516 *)
  | KRef, WArray => [(false, true)]                           (* multi_array_ref.hpp:474-502 *)
  | KConstRef _, WArray => [(false, false)]
  | KConstRef p, WRange => [(false, ptr_converts p PMut)]     (* multi_array_ref.hpp:127-138: T* out_iter = base_ *)
  | KConstRef _, WReindex => [(false, true)]                  (* multi_array_ref.hpp:140-163 *)
  | KConstRef _, WReshape => [(false, true)]                  (* multi_array_ref.hpp:165-179 *)
  | KSub, WArray => [(false, true)]                           (* subarray.hpp:227-254 *)
  | KConstSub _, WArray => [(false, false)]
  | KView, WArray => [(false, true)]                          (* view.hpp:293-321 *)
  | KConstView _, WArray => [(false, false)]
  | KConstView _, WReindex => [(false, true)]                 (* view.hpp:76-96 *)
  | _, _ => []
  end.
Fixpoint first_modifier (cs : list klass) (w : modifier) : list (bool * bool) :=
  match cs with
  | [] => []
  | c :: rest => match declared_modifier c w with [] => first_modifier rest w | l => l end
  end.

(** does the compiler accept the modifying operation on an expression of type t? *)
Definition modifier_ok (t : typ) (w : modifier) : bool :=
  match t, w with
  | TElem k, WElement => negb k
  | TObj c n k, _ =>
      existsb (fun f => snd f && (fst f || negb k)) (first_modifier (lineage c) w)
  | _, _ => false
  end.

(** * Programs over handles *)

Section Programs.
Context {T : Type}.
Variable dflt : T.

(** run-time values; they do not know whether they are const *)
Inductive value :=
| VOwn (a : multi_array)        (* multi_array *)
| VRef (c : cref)               (* [const_]multi_array_ref *)
| VSub (a : nd)                 (* [const_]sub_array *)
| VView (v : view)              (* [const_]multi_array_view *)
| VIter (i : iter)
| VRev (r : riter)
| VElem (p : ptr)               (* a reference to an element *)
| VPtr (p : ptr).

Definition value_nd (v : value) : option nd :=
  match v with
  | VOwn a => Some (cr_nd (ma_ref a))
  | VRef c => Some (cr_nd c)
  | VSub a => Some a
  | VView v => Some (v_nd v)
  | _ => None
  end.

(** base.hpp:129-180 access, by number of dimensions *)
Definition access_value (chk : bool) (i : Z) (a : nd) : outcome value :=
  match nd_ext a with
  | [_] => p <- access_one chk i a ;; Ok (VElem p)
  | _ => b <- access_n chk i a ;; Ok (VSub b)
  end.

(** the members, on values: the functions of Access.v and Objects.v *)
Definition run_member (chk : bool) (m : member) (v : value) : outcome value :=
  match value_nd v with
  | None => UB
  | Some a =>
      match m with
      | MIndex i => access_value chk i a
      | MCall idx => p <- access_element chk a idx ;; Ok (VElem p)
      | MSlice g => w <- make_view chk a g ;; Ok (VView w)
      | MBegin => i <- nd_begin a ;; Ok (VIter i)
      | MEnd => i <- nd_end a ;; Ok (VIter i)
      | MRbegin => r <- nd_rbegin a ;; Ok (VRev r)
      | MRend => r <- nd_rend a ;; Ok (VRev r)
      | MOrigin => Ok (VPtr (nd_org a))
      | MData => match v with
                 | VOwn b => Ok (VPtr (cr_data (ma_ref b)))
                 | VRef c => Ok (VPtr (cr_data c))
                 | _ => UB
                 end
      end
  end.

Definition run_op (chk : bool) (o : op) (v : value) : outcome value :=
  match o, v with
  | OMember m, _ => run_member chk m v
  | ODeref, VIter i => access_value chk (it_idx i) (it_nd i)
  | ODeref, VRev r => i <- it_dec (ri_base r) ;; access_value chk (it_idx i) (it_nd i)
  | ODeref, VPtr p => Ok (VElem p)
  | OSubscript k, VIter i => j <- it_advance i k ;; access_value chk (it_idx j) (it_nd j)
  | OSubscript k, VRev r =>
      s <- ri_advance r k ;; i <- it_dec (ri_base s) ;; access_value chk (it_idx i) (it_nd i)
  | OSubscript k, VPtr p => Ok (VElem (padd p k))
  | OArrow, VIter i => access_value chk (it_idx i) (it_nd i)
  | OMove k, VIter i => j <- it_advance i k ;; Ok (VIter j)
  | OMove k, VRev r => s <- ri_advance r k ;; Ok (VRev s)
  | OMove k, VPtr p => Ok (VPtr (padd p k))
  | OBase, VRev r => Ok (VIter (ri_base r))
  | OReverse, VIter i => Ok (VRev (RIter i))
  | OAddress, VElem p => Ok (VPtr p)
  | OConst, _ => Ok v
  | OUpcast, VOwn a => Ok (VRef (ma_ref a))
  | OUpcast, _ => Ok v
  | OCopy _, VOwn a => Ok (VRef (ma_ref a))
  | OCopy _, _ => Ok v
  | OConvert _, _ => Ok v
  | _, _ => UB
  end.

(** Statements.  Variables are numbered in order of declaration: the parameters
    first, then one more for each [CLet] and [CNew]. *)
Inductive statement :=
| CLet (x : nat) (o : op)                  (* auto&& y = <o>(x) *)
| CNew (x : nat) (so : storage_order)      (* multi_array y(x, so): a deep copy *)
| CRead (x : nat)                          (* reading the element x refers to *)
| CSet (x : nat) (v : T)                   (* x = v for an element reference x *)
| CSetFrom (x y : nat)                     (* x = y for element references *)
| CAssign (x y : nat)                      (* x = y for arrays *)
| CFill (x : nat) (l : list T).            (* x.assign(l.begin(), l.end()) *)

Definition is_obj (t : typ) : bool := match t with TObj _ _ _ => true | _ => false end.
Definition is_elem (t : typ) : bool := match t with TElem _ => true | _ => false end.
Definition dims (t : typ) : nat := match t with TObj _ n _ => n | _ => 0 end.

(** the types of the variables after the statement; [None]: rejected *)
Definition statement_types (ts : list typ) (s : statement) : option (list typ) :=
  match s with
  | CLet x o =>
      match nth_error ts x with
      | Some t => match op_type t o with Some t' => Some (ts ++ [t']) | None => None end
      | None => None
      end
  | CNew x _ =>
      match nth_error ts x with
      | Some (TObj c n k) => Some (ts ++ [TObj KMultiArray n false])   (* multi_array.hpp:229-418 *)
      | _ => None
      end
  | CRead x => match nth_error ts x with Some (TElem _) => Some ts | _ => None end
  | CSet x _ => match nth_error ts x with
                | Some t => if modifier_ok t WElement then Some ts else None
                | None => None end
  | CSetFrom x y => match nth_error ts x, nth_error ts y with
                    | Some t, Some (TElem _) => if modifier_ok t WElement then Some ts else None
                    | _, _ => None end
  | CAssign x y => match nth_error ts x, nth_error ts y with
                   | Some t, Some u =>
                       if modifier_ok t WArray && is_obj u && Nat.eqb (dims t) (dims u) then Some ts else None
                   | _, _ => None end
  | CFill x _ => match nth_error ts x with
                 | Some t => if modifier_ok t WRange then Some ts else None
                 | None => None end
  end.
Fixpoint program_types (ts : list typ) (p : list statement) : option (list typ) :=
  match p with
  | [] => Some ts
  | s :: rest => match statement_types ts s with Some ts' => program_types ts' rest | None => None end
  end.

Definition no_such_variable {A} : M T A := fun _ => Undef.

(** running a statement; no types are consulted *)
Definition run_statement (chk : bool) (vs : list value) (s : statement) : M T (list value) :=
  match s with
  | CLet x o =>
      match nth_error vs x with
      | Some v => v' <~ lift (run_op chk o v) ;; ret (vs ++ [v'])
      | None => no_such_variable
      end
  | CNew x so =>
      match nth_error vs x with
      | Some v => match value_nd v with
                  | Some a => b <~ ma_convert dflt chk a so 0 ;; ret (vs ++ [VOwn b])
                  | None => no_such_variable
                  end
      | None => no_such_variable
      end
  | CRead x =>
      match nth_error vs x with
      | Some (VElem p) => _ <~ load p ;; ret vs
      | _ => no_such_variable
      end
  | CSet x e =>
      match nth_error vs x with
      | Some (VElem p) => _ <~ tick ;; _ <~ store p e ;; ret vs
      | _ => no_such_variable
      end
  | CSetFrom x y =>
      match nth_error vs x, nth_error vs y with
      | Some (VElem p), Some (VElem q) => _ <~ elem_assign p q ;; ret vs
      | _, _ => no_such_variable
      end
  | CAssign x y =>
      match nth_error vs x, nth_error vs y with
      | Some v, Some u =>
          match value_nd v, value_nd u with
          | Some a, Some b => _ <~ assign_nd chk (length (nd_ext a)) a b ;; ret vs
          | _, _ => no_such_variable
          end
      | _, _ => no_such_variable
      end
  | CFill x l =>
      match nth_error vs x with
      | Some (VOwn a) => _ <~ cr_assign (ma_ref a) l ;; ret vs
      | Some (VRef c) => _ <~ cr_assign c l ;; ret vs
      | _ => no_such_variable
      end
  end.
Fixpoint run_program (chk : bool) (vs : list value) (p : list statement) : M T (list value) :=
  match p with
  | [] => ret vs
  | s :: rest => vs' <~ run_statement chk vs s ;; run_program chk vs' rest
  end.

End Programs.

Arguments CLet {T} x o.
Arguments CNew {T} x so.
Arguments CRead {T} x.
Arguments CSet {T} x v.
Arguments CSetFrom {T} x y.
Arguments CAssign {T} x y.
Arguments CFill {T} x l.
