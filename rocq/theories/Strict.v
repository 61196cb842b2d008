(** Strict.v -- the same code under the C++ rule for pointer arithmetic.

    In the rest of the model a pointer is a block and any offset, and only using
    a pointer outside of its block is undefined.  C++ is stricter: the result of
    p + n must lie in the array p points into, or one past its last element
    ([expr.add]); merely computing another pointer is undefined behaviour.  Here
    every place of the library that computes a pointer checks that rule.

    [room b] is the number of elements block b has room for.  Every definition
    follows the unchecked one of the same name without [strict_]; only the checks
    ([formed]) are new. *)

From Verif Require Import Base StorageOrder Ranges Layout Access Objects Memory Ops MultiArray History.

(** p has just been computed by pointer arithmetic: it must point into its block
    or one past the end *)
Definition formed (room : nat -> Z) (p : ptr) : outcome unit :=
  if (0 <=? p_off p) && (p_off p <=? room (p_blk p)) then Ok tt else UB.

(** the room of every block of a heap; in a freed block no pointer is valid *)
Definition sizes {T} (h : heap T) (b : nat) : Z :=
  match hblock h b with Some k => Z.of_nat (length (b_cells k)) | None => -1 end.

Section Strict.
Variable room : nat -> Z.

(** origin(): multi_array_ref.hpp:197,504 and view.hpp:112,323 compute
    base_ + origin_offset_; subarray.hpp:155,256 returns base_.  It is called by
    operator(), operator[], begin(), end(), rbegin() and rend() of all classes *)
Definition strict_geometry (o : obj) : outcome nd :=
  match o with
  | OSub a => Ok a
  | _ => _ <- formed room (nd_org (obj_nd o)) ;; Ok (obj_nd o)
  end.

(** base.hpp:129-141 value_accessor_n::access: TPtr newbase = base + offset *)
Definition strict_access_n (chk : bool) (idx : Z) (a : nd) : outcome nd :=
  r <- access_n chk idx a ;; _ <- formed room (nd_org r) ;; Ok r.
(** base.hpp:169-180 value_accessor_one::access: base + idx * strides[0] *)
Definition strict_access_one (chk : bool) (idx : Z) (a : nd) : outcome ptr :=
  p <- access_one chk idx a ;; _ <- formed room p ;; Ok p.

Fixpoint strict_brackets (chk : bool) (a : nd) (idx : list Z) : outcome ptr :=
  match idx with
  | [] => UB
  | [i] => strict_access_one chk i a
  | i :: rest => s <- strict_access_n chk i a ;; strict_brackets chk s rest
  end.
(** o[i1]...[iN] (multi_array_ref.hpp:221-225,519-524, subarray.hpp:75-78,259-263,
    view.hpp:130-135,336-341) *)
Definition strict_bracket (chk : bool) (o : obj) (idx : list Z) : outcome ptr :=
  a <- strict_geometry o ;; strict_brackets chk a idx.
(** o(indices): base.hpp:298-327, base[offset] *)
Definition strict_access_element (chk : bool) (o : obj) (idx : list Z) : outcome ptr :=
  a <- strict_geometry o ;; p <- access_element chk a idx ;; _ <- formed room p ;; Ok p.

(** iterator.hpp:120-129 dereference *)
Definition strict_deref_n (chk : bool) (i : iter) : outcome nd := strict_access_n chk (it_idx i) (it_nd i).
Definition strict_deref_one (chk : bool) (i : iter) : outcome ptr := strict_access_one chk (it_idx i) (it_nd i).

(** o[indices]: base.hpp:406-491 generate_array_view computes base + offset *)
Definition strict_make_view (chk : bool) (o : obj) (ig : index_gen) : outcome view :=
  a <- strict_geometry o ;; v <- make_view chk a ig ;; _ <- formed room (v_base v) ;; Ok v.

(** history expressions (History.v, [eval]) *)
Fixpoint strict_eval (chk : bool) (en : env) (e : expr) : outcome obj :=
  match e with
  | Var x => a <- var en x ;; Ok (OArr (ma_ref a))
  | Named h => x <- named en h ;; Ok (handle_obj x)
  | Sub e i => o <- strict_eval chk en e ;; g <- strict_geometry o ;; a <- strict_access_n chk i g ;; Ok (OSub a)
  | View_of e subs =>
      o <- strict_eval chk en e ;; ig <- indices_of indices subs ;; v <- strict_make_view chk o ig ;; Ok (OView v)
  | Row e k =>
      o <- strict_eval chk en e ;; g <- strict_geometry o ;; i <- nd_begin g ;; j <- it_advance i k ;;
      a <- strict_deref_n chk j ;; Ok (OSub a)
  | Rev_row e k =>
      o <- strict_eval chk en e ;; g <- strict_geometry o ;; i <- nd_rbegin g ;; j <- ri_inc_n k i ;;
      l <- it_dec (ri_base j) ;; a <- strict_deref_n chk l ;; Ok (OSub a)
  end.

Section Elements.
Context {T : Type}.

(** std::copy(src.begin(), src.end(), dst.begin()) (Ops.v, [copy_rows]) *)
Definition strict_copy_rows (rec : obj -> obj -> M T unit) (chk : bool) (k : nat) (dst src : obj) : M T unit :=
  s <~ lift (strict_geometry src) ;;
  d <~ lift (strict_geometry dst) ;;
  first <~ lift (nd_begin s) ;;
  last <~ lift (nd_end s) ;;
  result <~ lift (nd_begin d) ;;
  copy_loop
    (fun f r =>
       match k with
       | O =>
           p <~ lift (strict_deref_one chk f) ;;
           q <~ lift (strict_deref_one chk r) ;;
           elem_assign q p
       | S _ =>
           s <~ lift (strict_deref_n chk f) ;;
           d <~ lift (strict_deref_n chk r) ;;
           rec (OSub d) (OSub s)
       end)
    (loop_fuel first last) first last result.

(** multi_array_ref.hpp:475-502, subarray.hpp:228-254, view.hpp:294-321 (Ops.v, [assign_nd]) *)
Fixpoint strict_assign (chk : bool) (n : nat) (dst src : obj) {struct n} : M T unit :=
  match n with
  | O => fun _ => Undef
  | S k =>
      _ <~ lift (assertM chk (Ok (list_eqb (nd_ext (obj_nd src)) (nd_ext (obj_nd dst))))) ;;
      strict_copy_rows (strict_assign chk k) chk k dst src
  end.
(** std::copy called directly (Ops.v, [std_copy_nd]) *)
Definition strict_std_copy (chk : bool) (n : nat) (dst src : obj) : M T unit :=
  match n with
  | O => fun _ => Undef
  | S k => strict_copy_rows (strict_assign chk k) chk k dst src
  end.
(** copy_array.hpp:31-61 (Ops.v, [copy_array]) *)
Fixpoint strict_copy_dispatch (chk : bool) (n : nat) (dst src : obj) {struct n} : M T unit :=
  match n with
  | O => fun _ => Undef
  | S k => strict_copy_rows (strict_copy_dispatch chk k) chk k dst src
  end.
Definition strict_copy_array (chk : bool) (n : nat) (dst src : obj) : M T unit :=
  _ <~ lift (assertM chk (Ok (list_eqb (nd_ext (obj_nd src)) (nd_ext (obj_nd dst))))) ;;
  strict_copy_dispatch chk n dst src.

(** example/for_each.hpp:22-46 (Ops.v, [for_each]) *)
Fixpoint strict_for_each (chk : bool) (xform : T -> T) (n : nat) (o : obj) {struct n} : M T unit :=
  match n with
  | O => fun _ => Undef
  | S k =>
      a <~ lift (strict_geometry o) ;;
      first <~ lift (nd_begin a) ;;
      last <~ lift (nd_end a) ;;
      each_loop
        (fun i =>
           match k with
           | O => p <~ lift (strict_deref_one chk i) ;; v <~ load p ;; _ <~ tick ;; store p (xform v)
           | S _ => s <~ lift (strict_deref_n chk i) ;; strict_for_each chk xform k (OSub s)
           end)
        (loop_fuel first last) first last
  end.

(** assign(first, last): multi_array_ref.hpp:131-137, *out_iter++ *)
Fixpoint strict_assign_loop (out : ptr) (input : list T) (copy_count num : Z) : M T unit :=
  match input with
  | [] => ret tt
  | v :: rest =>
      if copy_count <? num then
        _ <~ tick ;;
        _ <~ store out v ;;
        _ <~ lift (formed room (padd out 1)) ;;
        strict_assign_loop (padd out 1) rest (copy_count + 1) num
      else ret tt
  end.
Definition strict_cr_assign (c : cref) (input : list T) : M T unit :=
  strict_assign_loop (cr_base c) input 0 (cr_num c).

(** algorithm.hpp:52-61 copy_n on element pointers: ++first, ++result *)
Fixpoint strict_copy_n_elems (first : ptr) (count : nat) (result : ptr) : M T unit :=
  match count with
  | O => ret tt
  | S k =>
      _ <~ elem_assign result first ;;
      _ <~ lift (formed room (padd first 1)) ;; _ <~ lift (formed room (padd result 1)) ;;
      strict_copy_n_elems (padd first 1) k (padd result 1)
  end.

Variable eqT : T -> T -> bool.
Variable ltT : T -> T -> bool.

(** operator== (Ops.v, [nd_eq]) *)
Fixpoint strict_eq (chk : bool) (h : heap T) (n : nat) (a b : obj) {struct n} : outcome bool :=
  match n with
  | O => UB
  | S k =>
      if list_eqb (nd_ext (obj_nd a)) (nd_ext (obj_nd b)) then
        a' <- strict_geometry a ;; b' <- strict_geometry b ;;
        f1 <- nd_begin a' ;; l1 <- nd_end a' ;; f2 <- nd_begin b' ;;
        equal_loop
          (fun x y =>
             match k with
             | O => p <- strict_deref_one chk x ;; q <- strict_deref_one chk y ;;
                    u <- hread h p ;; v <- hread h q ;; Ok (eqT u v)
             | S _ => s <- strict_deref_n chk x ;; t <- strict_deref_n chk y ;; strict_eq chk h k (OSub s) (OSub t)
             end)
          (loop_fuel f1 l1) f1 l1 f2
      else Ok false
  end.
(** operator< (Ops.v, [nd_lt]) *)
Fixpoint strict_lt (chk : bool) (h : heap T) (n : nat) (a b : obj) {struct n} : outcome bool :=
  match n with
  | O => UB
  | S k =>
      a' <- strict_geometry a ;; b' <- strict_geometry b ;;
      f1 <- nd_begin a' ;; l1 <- nd_end a' ;; f2 <- nd_begin b' ;; l2 <- nd_end b' ;;
      lex_loop
        (fun x y =>
           match k with
           | O => p <- strict_deref_one chk x ;; q <- strict_deref_one chk y ;;
                  u <- hread h p ;; v <- hread h q ;; Ok (ltT u v)
           | S _ => s <- strict_deref_n chk x ;; t <- strict_deref_n chk y ;; strict_lt chk h k (OSub s) (OSub t)
           end)
        (loop_fuel f1 l1) f1 l1 f2 l2
  end.
(** the six comparison operators (History.v, [compare]) *)
Definition strict_compare (op : comparison) (chk : bool) (h : heap T) (a b : obj) : outcome bool :=
  let n := length (nd_ext (obj_nd a)) in
  match op with
  | CEq => strict_eq chk h n a b
  | CNe => r <- strict_eq chk h n a b ;; Ok (negb r)
  | CLt => strict_lt chk h n a b
  | CGt => strict_lt chk h n b a
  | CLe => r <- strict_lt chk h n b a ;; Ok (negb r)
  | CGe => r <- strict_lt chk h n a b ;; Ok (negb r)
  end.
End Elements.
End Strict.

(** an operation in the heap as it is when the operation starts: the number of
    elements a block has room for does not change while it exists *)
Definition here {T A} (f : (nat -> Z) -> M T A) : M T A := fun w => f (sizes (w_heap w)) w.

Section StrictHistory.
Context {T : Type}.
Variable dflt : T.
Variable eqT : T -> T -> bool.
Variable ltT : T -> T -> bool.

(** multi_array.hpp:229-234 (MultiArray.v, [ma_copy]).  Allocation and the
    construction and destruction of elements compute only pointers to elements,
    which they use at once *)
Definition strict_ma_copy (rhs : multi_array) : M T multi_array :=
  this <~ allocate_space dflt (ma_ref rhs) (ma_aid rhs) ;;
  _ <~ here (fun room => strict_copy_n_elems room (ma_base rhs) (Z.to_nat (cr_num (ma_ref rhs))) (ma_base this)) ;;
  ret this.
(** multi_array.hpp:246-281 (MultiArray.v, [ma_convert]) *)
Definition strict_ma_convert (chk : bool) (rhs : obj) (so : storage_order) (aid : nat) : M T multi_array :=
  let g := obj_nd rhs in
  let n := length (nd_ext g) in
  c <~ lift (cref_from_shape chk n null_ptr so (nd_base g) (nd_ext g)) ;;
  this <~ allocate_space dflt c aid ;;
  _ <~ here (fun room => strict_std_copy room chk n (OArr (ma_ref this)) rhs) ;;
  ret this.
(** multi_array.hpp:421-432 (MultiArray.v, [ma_assign]) *)
Definition strict_ma_assign (room : nat -> Z) (chk : bool) (same : bool) (this other : multi_array) : M T unit :=
  if same then ret tt
  else strict_assign room chk (length (cr_ext (ma_ref this))) (OArr (ma_ref this)) (OArr (ma_ref other)).
(** multi_array.hpp:453-516 (MultiArray.v, [ma_resize]) *)
Definition strict_ma_resize (chk : bool) (this : multi_array) (g : extent_gen) : M T multi_array :=
  let n := length (cr_ext (ma_ref this)) in
  if Nat.eqb (eg_num g) n then
    new_array <~ ma_from_gen dflt chk g (cr_storage (ma_ref this)) (ma_aid this) ;;
    _ <~ here (fun room => on_throw
           (mins <~ lift (min_extents (cr_ext (ma_ref new_array)) (cr_ext (ma_ref this))) ;;
            new_ranges <~ lift (populate_all (cr_ib (ma_ref new_array)) mins) ;;
            old_ranges <~ lift (populate_all (cr_ib (ma_ref this)) mins) ;;
            view_old <~ lift (strict_make_view room chk (OArr (ma_ref this)) (IGen n n old_ranges)) ;;
            view_new <~ lift (strict_make_view room chk (OArr (ma_ref new_array)) (IGen n n new_ranges)) ;;
            strict_assign room chk n (OView view_new) (OView view_old))
           (ma_destroy new_array)) ;;
    let '(this', new_array') := swap_internals this new_array in
    _ <~ ma_destroy new_array' ;;
    ret this'
  else fun _ => Undef.
(** multi_array.hpp:435-449 (MultiArray.v, [ma_resize_list]) *)
Definition strict_ma_resize_list (chk : bool) (this : multi_array) (extents : list Z) : M T multi_array :=
  let n := length (cr_ext (ma_ref this)) in
  es <~ lift (copy_n extents n) ;;
  strict_ma_resize chk this (EGen n (map (fun e => ERange 0 (to_index e)) es)).

(** one command (History.v, [exec]); commands without pointer arithmetic are those
    of History.v *)
Definition strict_exec (chk : bool) (en : env) (c : command) : M T (env * output) :=
  here (fun room =>
  match c with
  | NewCopy y => b <~ lift (var en y) ;; a <~ strict_ma_copy b ;; ret (declare en a, ONone)
  | NewFrom e so aid =>
      x <~ lift (strict_eval room chk en e) ;; a <~ strict_ma_convert chk x so aid ;; ret (declare en a, ONone)
  | NewView e subs =>
      x <~ lift (strict_eval room chk en e) ;; ig <~ lift (indices_of indices subs) ;;
      v <~ lift (strict_make_view room chk x ig) ;; ret (name en (HView v), ONone)
  | NewRefList x off shape so =>
      a <~ lift (var en x) ;; _ <~ lift (formed room (padd (cr_data (ma_ref a)) off)) ;;
      c <~ lift (cref_from_list chk (length shape) (padd (cr_data (ma_ref a)) off) shape so) ;; ret (name en (HRef c), ONone)
  | NewRefRanges x off rs so =>
      a <~ lift (var en x) ;; _ <~ lift (formed room (padd (cr_data (ma_ref a)) off)) ;; g <~ lift (extents_of extents rs) ;;
      c <~ lift (cref_from_gen chk (padd (cr_data (ma_ref a)) off) g so) ;; ret (name en (HRef c), ONone)
  | Assign dst src =>
      s <~ lift (strict_eval room chk en src) ;; d <~ lift (strict_eval room chk en dst) ;;
      _ <~ strict_assign room chk (length (nd_ext (obj_nd d))) d s ;; ret (en, ONone)
  | AssignVar x y =>
      a <~ lift (var en x) ;; b <~ lift (var en y) ;;
      _ <~ strict_ma_assign room chk (Nat.eqb x y) a b ;; ret (en, ONone)
  | CopyArray dst src =>
      s <~ lift (strict_eval room chk en src) ;; d <~ lift (strict_eval room chk en dst) ;;
      _ <~ strict_copy_array room chk (length (nd_ext (obj_nd d))) d s ;; ret (en, ONone)
  | Get e i =>
      a <~ lift (strict_eval room chk en e) ;; p <~ lift (strict_access_element room chk a i) ;;
      v <~ load p ;; ret (en, OVal v)
  | Set_ e i v =>
      a <~ lift (strict_eval room chk en e) ;; p <~ lift (strict_access_element room chk a i) ;;
      _ <~ tick ;; _ <~ store p v ;; ret (en, ONone)
  | GetB e i =>
      a <~ lift (strict_eval room chk en e) ;; p <~ lift (strict_bracket room chk a i) ;;
      v <~ load p ;; ret (en, OVal v)
  | SetB e i v =>
      a <~ lift (strict_eval room chk en e) ;; p <~ lift (strict_bracket room chk a i) ;;
      _ <~ tick ;; _ <~ store p v ;; ret (en, ONone)
  | Fill x l => a <~ lift (var en x) ;; _ <~ strict_cr_assign room (ma_ref a) l ;; ret (en, ONone)
  | FillRef h l =>
      d <~ lift (named en h) ;;
      match d with
      | HRef c => _ <~ strict_cr_assign room c l ;; ret (en, ONone)
      | HView _ => fun _ => Undef
      end
  | ForEach e f =>
      a <~ lift (strict_eval room chk en e) ;; _ <~ strict_for_each room chk f (length (nd_ext (obj_nd a))) a ;; ret (en, ONone)
  | Resize x rs =>
      a <~ lift (var en x) ;; g <~ lift (extents_of extents rs) ;;
      a' <~ strict_ma_resize chk a g ;; ret (update en x a', ONone)
  | ResizeList x shape =>
      a <~ lift (var en x) ;;
      a' <~ strict_ma_resize_list chk a shape ;; ret (update en x a', ONone)
  | Compare op a b =>
      x <~ lift (strict_eval room chk en a) ;; y <~ lift (strict_eval room chk en b) ;;
      fun w => (r <~ lift (strict_compare room eqT ltT op chk (w_heap w) x y) ;; ret (en, OBool r)) w
  | Ask q e => o <~ lift (strict_eval room chk en e) ;; r <~ lift (answer q o) ;; ret (en, r)
  | _ => exec dflt eqT ltT chk en c
  end).

(** a program whose exceptions are caught (History.v, [run_catching]) *)
Fixpoint strict_run_catching (chk : bool) (en : env) (p : list (command * option nat)) (h : heap T)
  : res T (env * list (option output)) :=
  match p with
  | [] => Done (en, []) (World h None)
  | (c, f) :: rest =>
      match strict_exec chk en c (World h f) with
      | Done (en', o) w =>
          match strict_run_catching chk en' rest (w_heap w) with
          | Done (en2, os) w2 => Done (en2, Some o :: os) w2
          | r => r
          end
      | Thrown w =>
          match strict_run_catching chk en rest (w_heap w) with
          | Done (en2, os) w2 => Done (en2, None :: os) w2
          | r => r
          end
      | Aborted w => Aborted w
      | Undef => Undef
      | OutOfFuel => OutOfFuel
      end
  end.
End StrictHistory.
