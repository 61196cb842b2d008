(** Access.v -- element access, iterators and view generation: model of
    base.hpp (value accessors, access_element, generate_array_view) and
    iterator.hpp *)

From Verif Require Import Base StorageOrder Ranges Layout.

(** * Pointers *)

(** A T* : a storage block and an element offset into it.  Pointer arithmetic
    is flat (an offset outside the block is representable and only using it to
    reach an element is undefined); C++ is stricter, see the theorem
    [origin_outside_storage_refuted] (C32). *)
Record ptr := Ptr { p_blk : nat; p_off : Z }.
Definition padd (p : ptr) (k : Z) : ptr := Ptr (p_blk p) (p_off p + k).
Definition ptr_eqb (p q : ptr) : bool :=
  Nat.eqb (p_blk p) (p_blk q) && (p_off p =? p_off q).

(** * The common geometry

    Every array-like class (const_multi_array_ref, multi_array_ref, multi_array,
    const_sub_array, sub_array, const_multi_array_view, multi_array_view) hands
    the same four things to the shared code of base.hpp: origin(), shape(),
    strides() and index_bases().  [nd] is that quadruple; NumDims is the common
    length of the three lists. *)
Record nd := ND {
  nd_org : ptr; nd_ext : list Z; nd_str : list Z; nd_base : list Z
}.

(** base.hpp:135-136 and 177-178, the two range assertions of access *)
Definition range_check (chk : bool) (idx base ext : Z) : outcome unit :=
  _ <- assertM chk (d <- ssub idx base ;; Ok (0 <=? d)) ;;
  assertM chk (d <- ssub idx base ;; Ok (to_size d <? ext)).

(** base.hpp:129-141 value_accessor_n::access : NumDims >= 2, result is a
    sub_array with one dimension less *)
Definition access_n (chk : bool) (idx : Z) (a : nd) : outcome nd :=
  match nd_ext a, nd_str a, nd_base a with
  | e :: (_ :: _) as es, s :: ss, b :: bs =>
      _ <- range_check chk idx b e ;;
      m <- smul idx s ;;
      Ok (ND (padd (nd_org a) m) (tl (nd_ext a)) ss bs)
  | _, _, _ => UB
  end.

(** base.hpp:169-180 value_accessor_one::access : NumDims = 1, result is a
    reference to an element *)
Definition access_one (chk : bool) (idx : Z) (a : nd) : outcome ptr :=
  match nd_ext a, nd_str a, nd_base a with
  | [e], [s], [b] =>
      _ <- range_check chk idx b e ;;
      m <- smul idx s ;;
      Ok (padd (nd_org a) m)
  | _, _, _ => UB
  end.

(** The user expression a[i1][i2]...[iN] (multi_array_ref.hpp:221-225,519-524,
    subarray.hpp:75-78,259-263, view.hpp:130-135,336-341) *)
Fixpoint bracket (chk : bool) (a : nd) (idx : list Z) : outcome ptr :=
  match idx with
  | [] => UB
  | [i] => access_one chk i a
  | i :: rest => s <- access_n chk i a ;; bracket chk s rest
  end.

(** base.hpp:310-313 the range assertions of access_element *)
Fixpoint ae_checks (chk : bool) (ext bases idx : list Z) : outcome unit :=
  match ext, bases with
  | [], [] => Ok tt
  | e :: ext', b :: bases' =>
      match idx with
      | [] => UB                       (* reads indices[i] past the end *)
      | i :: idx' =>
          _ <- range_check chk i b e ;; ae_checks chk ext' bases' idx'
      end
  | _, _ => UB
  end.

(** base.hpp:316-325 the offset loop of access_element *)
Fixpoint ae_offset (str idx : list Z) (offset : Z) : outcome Z :=
  match str with
  | [] => Ok offset
  | s :: str' =>
      match idx with
      | [] => UB
      | i :: idx' =>
          m <- smul i s ;; o <- sadd offset m ;; ae_offset str' idx' o
      end
  end.

(** base.hpp:298-327 access_element: a(indices).  Without assertions the
    checking loop is not compiled (line 309). *)
Definition access_element (chk : bool) (a : nd) (idx : list Z) : outcome ptr :=
  _ <- (if chk then ae_checks chk (nd_ext a) (nd_base a) idx else Ok tt) ;;
  o <- ae_offset (nd_str a) idx 0 ;;
  Ok (padd (nd_org a) o).

(** access_element (base.hpp:298-327) for an index list whose value_type is
    std::size_t: in [indices[i] - index_bases[i]] and [( *i) * strides[n]] the
    index operands are converted to size_t and the arithmetic wraps; the first
    assertion compares an unsigned value with 0; [offset +=] converts back.
    (Lists of narrower types promote to index and behave like lists of index.) *)
Fixpoint ae_checks_u (chk : bool) (ext bases idx : list Z) : outcome unit :=
  match ext, bases with
  | [], [] => Ok tt
  | e :: ext', b :: bases' =>
      match idx with
      | [] => UB
      | i :: idx' =>
          _ <- assertM chk (Ok (0 <=? to_size (i - to_size b))) ;;
          _ <- assertM chk (Ok (to_size (i - to_size b) <? e)) ;;
          ae_checks_u chk ext' bases' idx'
      end
  | _, _ => UB
  end.
Fixpoint ae_offset_u (str idx : list Z) (offset : Z) : outcome Z :=
  match str with
  | [] => Ok offset
  | s :: str' =>
      match idx with
      | [] => UB
      | i :: idx' =>
          ae_offset_u str' idx' (to_index (to_size (to_size offset + to_size (i * to_size s))))
      end
  end.
Definition access_element_u (chk : bool) (a : nd) (idx : list Z) : outcome ptr :=
  _ <- (if chk then ae_checks_u chk (nd_ext a) (nd_base a) idx else Ok tt) ;;
  o <- ae_offset_u (nd_str a) idx 0 ;;
  Ok (padd (nd_org a) o).

(** * Iterators (iterator.hpp) *)

(** iterator.hpp:83-87 members of array_iterator *)
Record iter := Iter {
  it_idx : Z; it_base : ptr;
  it_ext : list Z; it_str : list Z; it_ib : list Z
}.

(** begin(): multi_array_ref.hpp:243-246,543-546; subarray.hpp:137-140,290-293;
    view.hpp:152-155,360-364 *)
Definition nd_begin (a : nd) : outcome iter :=
  match nd_base a with
  | b :: _ => Ok (Iter b (nd_org a) (nd_ext a) (nd_str a) (nd_base a))
  | [] => UB
  end.
(** end(): multi_array_ref.hpp:248-251,548-552; subarray.hpp:142-145,295-298;
    view.hpp:157-160,366-370: *index_bases()+(index)*shape() *)
Definition nd_end (a : nd) : outcome iter :=
  match nd_base a, nd_ext a with
  | b :: _, e :: _ =>
      i <- sadd b (to_index e) ;;
      Ok (Iter i (nd_org a) (nd_ext a) (nd_str a) (nd_base a))
  | _, _ => UB
  end.

Definition it_with_idx (i : iter) (k : Z) : iter :=
  Iter k (it_base i) (it_ext i) (it_str i) (it_ib i).
(** iterator.hpp:131 increment *)
Definition it_inc (i : iter) : outcome iter :=
  k <- sadd (it_idx i) 1 ;; Ok (it_with_idx i k).
(** iterator.hpp:132 decrement *)
Definition it_dec (i : iter) : outcome iter :=
  k <- ssub (it_idx i) 1 ;; Ok (it_with_idx i k).
(** iterator.hpp:147-150 advance *)
Definition it_advance (i : iter) (n : Z) : outcome iter :=
  k <- sadd (it_idx i) n ;; Ok (it_with_idx i k).
(** iterator.hpp:152-156 distance_to *)
Definition it_distance (i j : iter) : outcome Z := ssub (it_idx j) (it_idx i).
(** iterator.hpp:134-145 equal.  For each of the three lists the code tests
    (same pointer) || (same contents); equal pointers have equal contents, so
    the disjunction is equality of contents. *)
Definition it_equal (i j : iter) : bool :=
  (it_idx i =? it_idx j) && ptr_eqb (it_base i) (it_base j) &&
  list_eqb (it_ext i) (it_ext j) && list_eqb (it_str i) (it_str j) &&
  list_eqb (it_ib i) (it_ib j).
(** boost::iterator_facade, operator< built on distance_to *)
Definition it_less (i j : iter) : outcome bool :=
  d <- it_distance j i ;; Ok (d <? 0).

Definition it_nd (i : iter) : nd := ND (it_base i) (it_ext i) (it_str i) (it_ib i).
(** iterator.hpp:120-129 dereference, NumDims >= 2 *)
Definition it_deref_n (chk : bool) (i : iter) : outcome nd :=
  access_n chk (it_idx i) (it_nd i).
(** iterator.hpp:120-129 dereference, NumDims = 1 *)
Definition it_deref_one (chk : bool) (i : iter) : outcome ptr :=
  access_one chk (it_idx i) (it_nd i).

(** boost::reverse_iterator (base.hpp:288-289): holds the base iterator *)
Record riter := RIter { ri_base : iter }.
(** rbegin(): multi_array_ref.hpp:253-255,555-558; subarray.hpp:147-149,301-304;
    view.hpp:162-164,372-374 *)
Definition nd_rbegin (a : nd) : outcome riter := i <- nd_end a ;; Ok (RIter i).
(** rend(): multi_array_ref.hpp:257-259,560-563; subarray.hpp:151-153,306-309;
    view.hpp:166-168,376-378 *)
Definition nd_rend (a : nd) : outcome riter := i <- nd_begin a ;; Ok (RIter i).
Definition ri_inc (r : riter) : outcome riter := i <- it_dec (ri_base r) ;; Ok (RIter i).
Definition ri_equal (r s : riter) : bool := it_equal (ri_base r) (ri_base s).
Definition ri_deref_n (chk : bool) (r : riter) : outcome nd :=
  i <- it_dec (ri_base r) ;; it_deref_n chk i.
Definition ri_deref_one (chk : bool) (r : riter) : outcome ptr :=
  i <- it_dec (ri_base r) ;; it_deref_one chk i.

(** boost::iterator_facade: i[n] is *(i + n) (it returns a proxy for that
    element or row) *)
Definition it_index_n (chk : bool) (i : iter) (n : Z) : outcome nd :=
  j <- it_advance i n ;; it_deref_n chk j.
Definition it_index_one (chk : bool) (i : iter) (n : Z) : outcome ptr :=
  j <- it_advance i n ;; it_deref_one chk j.
(** boost::reverse_iterator: -- is ++ on the base iterator, += n is -= n on it,
    the distance is that of the base iterators the other way round, and < comes
    from the distance (iterator_facade) *)
Definition ri_dec (r : riter) : outcome riter := i <- it_inc (ri_base r) ;; Ok (RIter i).
Definition ri_advance (r : riter) (n : Z) : outcome riter :=
  m <- ssub 0 n ;; i <- it_advance (ri_base r) m ;; Ok (RIter i).
Definition ri_distance (r s : riter) : outcome Z := it_distance (ri_base s) (ri_base r).
Definition ri_less (r s : riter) : outcome bool :=
  d <- ri_distance s r ;; Ok (d <? 0).

(** * View generation *)

(** base.hpp:440-450 length of a half-open strided interval *)
Definition view_len (start finish stride : Z) : outcome Z :=
  d <- ssub finish start ;;
  q <- sdiv d stride ;;
  if q <? 0 then Ok 0
  else
    let shrinkage := if 0 <? stride then 1 else -1 in
    a <- ssub stride shrinkage ;;
    n <- sadd d a ;;
    sdiv n stride.

(** base.hpp:455-457 assertion on start ([&&] and [||] are lazy) *)
Definition start_ok (b e start : Z) : outcome bool :=
  if b <=? start then
    (t <- sadd b (to_index e) ;;
     Ok ((start <=? t) || ((start =? b) && (e =? 0))))
  else Ok false.

(** base.hpp:463-465 assertion on finish *)
Definition finish_ok (b e finish stride : Z) : outcome bool :=
  let bound_adjustment := if stride <? 0 then 1 else 0 in
  lo <- ssub b bound_adjustment ;;
  if lo <=? finish then
    (t <- sadd b (to_index e) ;; hi <- ssub t bound_adjustment ;;
     Ok (finish <=? hi))
  else Ok false.

(** state of the loop of generate_array_view: offset, dim, new_strides,
    new_extents (base.hpp:416-420) *)
Record gav_state := GS {
  gs_off : Z; gs_dim : nat; gs_str : list (option Z); gs_ext : list (option Z)
}.

(** base.hpp:424-483 body of the loop of generate_array_view *)
Definition gav_step (chk : bool) (r : index_range) (e s b : Z) (st : gav_state)
  : outcome gav_state :=
  let default_start := b in
  let default_finish := to_index (to_size default_start + e) in
  let start := ir_get_start r default_start in
  let finish := ir_get_finish r default_finish in
  let stride := ir_stride r in
  _ <- assertM chk (Ok (negb (stride =? 0))) ;;
  len <- view_len start finish stride ;;
  _ <- assertM chk (start_ok b e start) ;;
  _ <- assertM chk (finish_ok b e finish stride) ;;
  m <- smul start s ;;
  off <- sadd (gs_off st) m ;;
  if ir_degenerate r then
    Ok (GS off (gs_dim st) (gs_str st) (gs_ext st))
  else
    v <- smul stride s ;;
    nstr <- arr_set chk (gs_str st) (gs_dim st) (Some v) ;;
    next <- arr_set chk (gs_ext st) (gs_dim st) (Some len) ;;
    Ok (GS off (S (gs_dim st)) nstr next).

(** base.hpp:421-484 the loop over the dimensions *)
Fixpoint gav_loop (chk : bool) (ranges : list index_range)
         (ext str bases : list Z) (st : gav_state) : outcome gav_state :=
  match ext, str, bases, ranges with
  | [], [], [], _ => Ok st
  | e :: ext', s :: str', b :: bases', r :: ranges' =>
      st' <- gav_step chk r e s b st ;;
      gav_loop chk ranges' ext' str' bases' st'
  | _, _, _, _ => UB
  end.

(** base.hpp:406-491 generate_array_view; the result is the argument list of
    the view constructor: base + offset, new_extents, new_strides.  NDims is
    [ig_dims], NumDims = [ig_num] is enforced by the C++ types. *)
Definition generate_array_view (chk : bool) (ig : index_gen) (a : nd)
  : outcome (ptr * list Z * list Z) :=
  if Nat.eqb (ig_num ig) (length (nd_ext a)) then
    st <- gav_loop chk (ig_ranges ig) (nd_ext a) (nd_str a) (nd_base a)
                   (GS 0 0 (repeat None (ig_dims ig)) (repeat None (ig_dims ig))) ;;
    _ <- assertM chk (Ok (Nat.eqb (gs_dim st) (ig_dims ig))) ;;
    next <- read_all (gs_ext st) ;;
    nstr <- read_all (gs_str st) ;;
    Ok (padd (nd_org a) (gs_off st), next, nstr)
  else UB.  (* rejected by the compiler *)
