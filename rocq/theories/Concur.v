(** Concur.v -- threads that construct, use, resize and destroy arrays.

    As Threads.v, but for all commands of History.v: a thread's program is written
    so that every access to memory is a step of its own -- reading an element,
    assigning to one, obtaining a block, constructing an element in it, destroying
    one, giving a block back -- and a scheduler may switch threads between any two
    steps.  Exceptions are included: an operation that can throw is a step in which
    the thread goes on or throws.  The functions are those of Memory.v, Ops.v,
    MultiArray.v and History.v, line for line; ThmConcur.c66_steps_are_calls
    proves that running them without interruption gives back the originals, so any
    slip in the copies below would have made that proof fail.

    Simplifications: arrays, views and references themselves (extents, strides, ...)
    are values held by the thread, so every thread has its own copy of the shared
    arrays' geometry: sharing is of elements only, and a thread that changes the
    geometry of a shared array is outside the model (C62 has that).  The heap hands
    out a fresh block to whoever asks: the allocator is thread-safe, as the standard
    one is.  Memory is sequentially consistent: by c66 no two threads ever touch the
    same block with one changing it, so weaker memories cannot show. *)

From Verif Require Import Base StorageOrder Ranges Layout Access Objects Memory Ops MultiArray History Threads.

Section Concur.
Context {T : Type}.

Inductive job (A : Type) : Type :=
| JRet (a : A)                                       (* finished *)
| JThrow                                             (* ended by an exception *)
| JAbort                                             (* BOOST_ASSERT failed *)
| JUndef                                             (* undefined behaviour *)
| JFuel                                              (* a loop ran out of steps *)
| JArm (f : option nat) (k : job A)                  (* choose the operation that will throw *)
| JTick (good bad : job A)                           (* an operation that can throw *)
| JRead (p : ptr) (k : T -> job A)                   (* read an element *)
| JWrite (p : ptr) (v : T) (k : job A)               (* assign to an element *)
| JAlloc (aid : nat) (n : nat) (k : ptr -> job A)    (* obtain a block *)
| JFree (aid : nat) (p : ptr) (n : Z) (k : job A)    (* give a block back *)
| JMake (p : ptr) (v : T) (k : job A)                (* construct an element *)
| JKill (p : ptr) (k : job A).                       (* destroy an element *)
Arguments JRet {A} a.
Arguments JThrow {A}.
Arguments JAbort {A}.
Arguments JUndef {A}.
Arguments JFuel {A}.
Arguments JArm {A} f k.
Arguments JTick {A} good bad.
Arguments JRead {A} p k.
Arguments JWrite {A} p v k.
Arguments JAlloc {A} aid n k.
Arguments JFree {A} aid p n k.
Arguments JMake {A} p v k.
Arguments JKill {A} p k.

(** continue with [ok] after m, or with [thrown] if it throws *)
Fixpoint jtry {A B} (m : job A) (ok : A -> job B) (thrown : job B) : job B :=
  match m with
  | JRet a => ok a
  | JThrow => thrown
  | JAbort => JAbort
  | JUndef => JUndef
  | JFuel => JFuel
  | JArm f k => JArm f (jtry k ok thrown)
  | JTick g b => JTick (jtry g ok thrown) (jtry b ok thrown)
  | JRead p k => JRead p (fun v => jtry (k v) ok thrown)
  | JWrite p v k => JWrite p v (jtry k ok thrown)
  | JAlloc aid n k => JAlloc aid n (fun p => jtry (k p) ok thrown)
  | JFree aid p n k => JFree aid p n (jtry k ok thrown)
  | JMake p v k => JMake p v (jtry k ok thrown)
  | JKill p k => JKill p (jtry k ok thrown)
  end.
(** Memory.bind, Memory.on_throw, Memory.lift, Memory.tick *)
Definition jbind {A B} (m : job A) (f : A -> job B) : job B := jtry m f JThrow.
Definition jon_throw {A} (m : job A) (h : job unit) : job A :=
  jtry m JRet (jtry h (fun _ => JThrow) JUndef).
Definition jlift {A} (o : outcome A) : job A :=
  match o with Ok a => JRet a | Abort => JAbort | UB => JUndef end.
Definition jtick : job unit := JTick (JRet tt) JThrow.
Local Notation "x <! e ;; k" := (jbind e (fun x => k)) (at level 61, e at next level, right associativity).

(** Memory.load, Memory.store: reading *p and assigning to it *)
Definition jload (p : ptr) : job T := JRead p (fun v => JRet v).
Definition jstore (p : ptr) (v : T) : job unit := JWrite p v (JRet tt).
(** Memory.elem_assign: *dst = *src (no line of its own: the element type's operator=, used in copy_n, algorithm.hpp:52-61, and std::copy) *)
Definition j_elem_assign (dst src : ptr) : job unit := v <! jload src ;; _ <! jtick ;; jstore dst v.
(** Memory.allocate: the call of allocate in multi_array.hpp:545 *)
Definition j_allocate (aid : nat) (n : Z) : job ptr :=
  _ <! jtick ;;
  if (0 <=? n) && (n <=? idx_max) then JAlloc aid (Z.to_nat n) (fun p => JRet p) else JThrow.
(** Memory.deallocate: the call of deallocate in multi_array.hpp:554 *)
Definition j_deallocate (aid : nat) (p : ptr) (n : Z) : job unit := JFree aid p n (JRet tt).
(** Memory.destroy: the destructor of one element (multi_array.hpp:553, alloc_destroy_n) *)
Definition j_destroy (p : ptr) : job unit := JKill p (JRet tt).

(** a comparison: Threads.v has its steps *)
Fixpoint of_prog {A} (m : prog T A) : job A :=
  match m with
  | PRet a => JRet a
  | PAbort => JAbort
  | PUndef => JUndef
  | PFuel => JFuel
  | PLoad p k => JRead p (fun v => of_prog (k v))
  | PStore p v k => JWrite p v (of_prog k)
  end.

(** * Ops.v *)
(** Ops.copy_loop: the loop of std::copy (multi_array_ref.hpp:486, subarray.hpp:238, view.hpp:305) and of copy_array.hpp:34-36 *)
Fixpoint j_copy_loop (body : iter -> iter -> job unit) (fuel : nat)
         (first last result : iter) : job unit :=
  if it_equal first last then JRet tt
  else match fuel with
       | O => JFuel
       | S f =>
           _ <! body first result ;;
           first' <! jlift (it_inc first) ;;
           result' <! jlift (it_inc result) ;;
           j_copy_loop body f first' last result'
       end.
(** Ops.copy_rows: std::copy(src.begin(), src.end(), dst.begin()), as above *)
Definition j_copy_rows (rec : nd -> nd -> job unit) (chk : bool) (k : nat) (dst src : nd)
  : job unit :=
  first <! jlift (nd_begin src) ;;
  last <! jlift (nd_end src) ;;
  result <! jlift (nd_begin dst) ;;
  j_copy_loop
    (fun f r =>
       match k with
       | O => 
           p <! jlift (it_deref_one chk f) ;;
           q <! jlift (it_deref_one chk r) ;;
           j_elem_assign q p
       | S _ => 
           s <! jlift (it_deref_n chk f) ;;
           d <! jlift (it_deref_n chk r) ;;
           rec d s
       end)
    (loop_fuel first last) first last result.
(** Ops.assign_nd: multi_array_ref.hpp:475-502, subarray.hpp:228-254, view.hpp:294-321 operator= *)
Fixpoint j_assign_nd (chk : bool) (n : nat) (dst src : nd) {struct n} : job unit :=
  match n with
  | O => JUndef
  | S k =>
      _ <! jlift (assertM chk (Ok (list_eqb (nd_ext src) (nd_ext dst)))) ;;
      j_copy_rows (j_assign_nd chk k) chk k dst src
  end.
(** Ops.std_copy_nd: the std::copy of the converting constructors, multi_array.hpp:255,267,280 *)
Definition j_std_copy_nd (chk : bool) (n : nat) (dst src : nd) : job unit :=
  match n with
  | O => JUndef
  | S k => j_copy_rows (j_assign_nd chk k) chk k dst src
  end.
(** Ops.copy_dispatch: copy_array.hpp:31-48 *)
Fixpoint j_copy_dispatch (chk : bool) (n : nat) (dst src : nd) {struct n} : job unit :=
  match n with
  | O => JUndef
  | S k => j_copy_rows (j_copy_dispatch chk k) chk k dst src
  end.
(** Ops.copy_array: copy_array.hpp:53-61 *)
Definition j_copy_array (chk : bool) (n : nat) (dst src : nd) : job unit :=
  _ <! jlift (assertM chk (Ok (list_eqb (nd_ext src) (nd_ext dst)))) ;;
  j_copy_dispatch chk n dst src.
(** Ops.each_loop: example/for_each.hpp:22-46, the loop *)
Fixpoint j_each_loop (body : iter -> job unit) (fuel : nat) (first last : iter) : job unit :=
  if it_equal first last then JRet tt
  else match fuel with
       | O => JFuel
       | S f =>
           _ <! body first ;;
           first' <! jlift (it_inc first) ;;
           j_each_loop body f first' last
       end.
(** Ops.for_each: example/for_each.hpp:22-46 *)
Fixpoint j_for_each (chk : bool) (xform : T -> T) (n : nat) (a : nd) {struct n} : job unit :=
  match n with
  | O => JUndef
  | S k =>
      first <! jlift (nd_begin a) ;;
      last <! jlift (nd_end a) ;;
      j_each_loop
        (fun i =>
           match k with
           | O => p <! jlift (it_deref_one chk i) ;; v <! jload p ;;
                  _ <! jtick ;; jstore p (xform v)
           | S _ => s <! jlift (it_deref_n chk i) ;; j_for_each chk xform k s
           end)
        (loop_fuel first last) first last
  end.
(** Ops.assign_loop: multi_array_ref.hpp:131-137 *)
Fixpoint j_assign_loop (out : ptr) (input : list T) (copy_count num : Z) : job unit :=
  match input with
  | [] => JRet tt
  | v :: rest =>
      if copy_count <? num then
        _ <! jtick ;;
        _ <! jstore out v ;;
        j_assign_loop (padd out 1) rest (copy_count + 1) num
      else JRet tt
  end.
(** Ops.cr_assign: multi_array_ref.hpp:127-138 assign *)
Definition j_cr_assign (c : cref) (input : list T) : job unit :=
  j_assign_loop (cr_base c) input 0 (cr_num c).
(** Ops.get_element: x = a(idx), base.hpp:298-327 *)
Definition j_get_element (chk : bool) (a : nd) (idx : list Z) : job T :=
  p <! jlift (access_element chk a idx) ;; jload p.
(** Ops.set_element: a(idx) = v *)
Definition j_set_element (chk : bool) (a : nd) (idx : list Z) (v : T) : job unit :=
  p <! jlift (access_element chk a idx) ;; _ <! jtick ;; jstore p v.
(** Ops.get_bracket: x = a[i1]...[iN] *)
Definition j_get_bracket (chk : bool) (a : nd) (idx : list Z) : job T :=
  p <! jlift (bracket chk a idx) ;; jload p.
(** Ops.set_bracket: a[i1]...[iN] = v *)
Definition j_set_bracket (chk : bool) (a : nd) (idx : list Z) (v : T) : job unit :=
  p <! jlift (bracket chk a idx) ;; _ <! jtick ;; jstore p v.

Variable dflt : T.
(** * Memory.v, continued *)
(** Memory.construct: one element of alloc_construct_n (multi_array.hpp:548) *)
Definition j_construct (p : ptr) : job unit := _ <! jtick ;; JMake p dflt (JRet tt).
(** Memory.alloc_destroy_n: boost::alloc_destroy_n, called in multi_array.hpp:553 *)
Fixpoint j_alloc_destroy_n (p : ptr) (n : nat) : job unit :=
  match n with
  | O => JRet tt
  | S k => jbind (j_destroy (padd p (Z.of_nat k))) (fun _ => j_alloc_destroy_n p k)
  end.
(** Memory.alloc_construct_loop: boost::alloc_construct_n, called in multi_array.hpp:548 *)
Fixpoint j_alloc_construct_loop (p : ptr) (i n : nat) : job unit :=
  match n with
  | O => JRet tt
  | S k =>
      jbind (jon_throw (j_construct (padd p (Z.of_nat i))) (j_alloc_destroy_n p i))
           (fun _ => j_alloc_construct_loop p (S i) k)
  end.
(** Memory.alloc_construct_n: the same *)
Definition j_alloc_construct_n (p : ptr) (n : nat) : job unit :=
  j_alloc_construct_loop p 0 n.

(** * MultiArray.v *)
(** MultiArray.allocate_space: multi_array.hpp:544-549 *)
Definition j_allocate_space (c : cref) (aid : nat) : job multi_array :=
  p <! j_allocate aid (cr_num c) ;;
  let c' := cr_set_base c p in
  _ <! j_alloc_construct_n p (Z.to_nat (cr_num c)) ;;
  JRet (MA c' p (cr_num c) aid).
(** MultiArray.ma_destroy: multi_array.hpp:519-521, 551-556 *)
Definition j_ma_destroy (a : multi_array) : job unit :=
  _ <! j_alloc_destroy_n (ma_base a) (Z.to_nat (ma_alloc_elems a)) ;;
  j_deallocate (ma_aid a) (ma_base a) (ma_alloc_elems a).
(** MultiArray.ma_default: multi_array.hpp:152-157 *)
Definition j_ma_default (chk : bool) (n : nat) (aid : nat) : job multi_array :=
  so <! jlift (c_conversion n) ;;
  c <! jlift (cref_default chk n null_ptr so) ;;
  j_allocate_space c aid.
(** MultiArray.ma_from_list: multi_array.hpp:160-196 *)
Definition j_ma_from_list (chk : bool) (n : nat) (extents : list Z)
           (so : storage_order) (aid : nat) : job multi_array :=
  c <! jlift (cref_from_list chk n null_ptr extents so) ;;
  j_allocate_space c aid.
(** MultiArray.ma_from_gen: multi_array.hpp:199-227 *)
Definition j_ma_from_gen (chk : bool) (g : extent_gen) (so : storage_order)
           (aid : nat) : job multi_array :=
  c <! jlift (cref_from_gen chk null_ptr g so) ;;
  j_allocate_space c aid.
(** MultiArray.copy_n_elems: algorithm.hpp:52-61 *)
Fixpoint j_copy_n_elems (first : ptr) (count : nat) (result : ptr) : job unit :=
  match count with
  | O => JRet tt
  | S k =>
      _ <! j_elem_assign result first ;;
      j_copy_n_elems (padd first 1) k (padd result 1)
  end.
(** MultiArray.ma_copy: multi_array.hpp:229-234 *)
Definition j_ma_copy (rhs : multi_array) : job multi_array :=
  this <! j_allocate_space (ma_ref rhs) (ma_aid rhs) ;;
  _ <! j_copy_n_elems (ma_base rhs) (Z.to_nat (cr_num (ma_ref rhs))) (ma_base this) ;;
  JRet this.
(** MultiArray.ma_convert: multi_array.hpp:246-281 *)
Definition j_ma_convert (chk : bool) (rhs : nd) (so : storage_order) (aid : nat)
  : job multi_array :=
  let n := length (nd_ext rhs) in
  c <! jlift (cref_from_shape chk n null_ptr so (nd_base rhs) (nd_ext rhs)) ;;
  this <! j_allocate_space c aid ;;
  _ <! j_std_copy_nd chk n (cr_nd (ma_ref this)) rhs ;;
  JRet this.
(** MultiArray.ma_assign_from: multi_array.hpp:421-425 *)
Definition j_ma_assign_from (chk : bool) (this : multi_array) (other : nd) : job unit :=
  j_assign_nd chk (length (cr_ext (ma_ref this))) (cr_nd (ma_ref this)) other.
(** MultiArray.ma_assign: multi_array.hpp:427-432 *)
Definition j_ma_assign (chk : bool) (same : bool) (this other : multi_array) : job unit :=
  if same then JRet tt else j_ma_assign_from chk this (cr_nd (ma_ref other)).
(** MultiArray.ma_resize: multi_array.hpp:453-516 *)
Definition j_ma_resize (chk : bool) (this : multi_array) (g : extent_gen)
  : job multi_array :=
  let n := length (cr_ext (ma_ref this)) in
  if Nat.eqb (eg_num g) n then
    new_array <! j_ma_from_gen chk g (cr_storage (ma_ref this)) (ma_aid this) ;;
    _ <! jon_throw
           (mins <! jlift (min_extents (cr_ext (ma_ref new_array)) (cr_ext (ma_ref this))) ;;
            new_ranges <! jlift (populate_all (cr_ib (ma_ref new_array)) mins) ;;
            old_ranges <! jlift (populate_all (cr_ib (ma_ref this)) mins) ;;
            view_old <! jlift (make_view chk (cr_nd (ma_ref this)) (IGen n n old_ranges)) ;;
            view_new <! jlift (make_view chk (cr_nd (ma_ref new_array)) (IGen n n new_ranges)) ;;
            j_assign_nd chk n (v_nd view_new) (v_nd view_old))
           (j_ma_destroy new_array) ;;
    let '(this', new_array') := swap_internals this new_array in
    _ <! j_ma_destroy new_array' ;;
    JRet this'
  else JUndef.      
(** MultiArray.ma_resize_list: multi_array.hpp:435-449 *)
Definition j_ma_resize_list (chk : bool) (this : multi_array) (extents : list Z)
  : job multi_array :=
  let n := length (cr_ext (ma_ref this)) in
  es <! jlift (copy_n extents n) ;;
  j_ma_resize chk this (EGen n (map (fun e => ERange 0 (to_index e)) es)).

Variable eqT : T -> T -> bool.
Variable ltT : T -> T -> bool.
(** History.compare; Ops.nd_neq ... nd_ge: multi_array_ref.hpp:263-306, subarray.hpp:106-137,
    view.hpp:172-216 the comparison operators *)
Definition j_compare (op : comparison) (chk : bool) (a b : nd) : job bool :=
  let n := length (nd_ext a) in
  match op with
  | CEq => of_prog (p_nd_eq eqT chk n a b)
  | CNe => r <! of_prog (p_nd_eq eqT chk n a b) ;; JRet (negb r)
  | CLt => of_prog (p_nd_lt ltT chk n a b)
  | CGt => of_prog (p_nd_lt ltT chk n b a)
  | CLe => r <! of_prog (p_nd_lt ltT chk n b a) ;; JRet (negb r)
  | CGe => r <! of_prog (p_nd_lt ltT chk n a b) ;; JRet (negb r)
  end.
(** History.exec, one command of a program: the functions above, with the pure parts of
    the library (geometry, views, references, reindex, reshape) as they are *)
Definition j_exec (chk : bool) (en : env) (c : command) : job (env * output) :=
  match c with
  | NewDefault n aid => a <! j_ma_default chk n aid ;; JRet (declare en a, ONone)
  | NewList shape so aid =>
      a <! j_ma_from_list chk (length shape) shape so aid ;; JRet (declare en a, ONone)
  | NewRanges rs so aid =>
      g <! jlift (extents_of extents rs) ;;
      a <! j_ma_from_gen chk g so aid ;; JRet (declare en a, ONone)
  | NewCopy y => b <! jlift (var en y) ;; a <! j_ma_copy b ;; JRet (declare en a, ONone)
  | NewFrom e so aid =>
      x <! jlift (eval_nd chk en e) ;; a <! j_ma_convert chk x so aid ;; JRet (declare en a, ONone)
  | NewView e subs =>
      x <! jlift (eval_nd chk en e) ;; ig <! jlift (indices_of indices subs) ;;
      v <! jlift (make_view chk x ig) ;; JRet (name en (HView v), ONone)
  | NewRefList x off shape so =>
      a <! jlift (var en x) ;;
      c <! jlift (cref_from_list chk (length shape) (padd (cr_data (ma_ref a)) off) shape so) ;; JRet (name en (HRef c), ONone)
  | NewRefRanges x off rs so =>
      a <! jlift (var en x) ;; g <! jlift (extents_of extents rs) ;;
      c <! jlift (cref_from_gen chk (padd (cr_data (ma_ref a)) off) g so) ;; JRet (name en (HRef c), ONone)
  | NewRefOf x => a <! jlift (var en x) ;; JRet (name en (HRef (cr_shallow_copy (ma_ref a))), ONone)
  | NewAlias h =>
      d <! jlift (named en h) ;;
      JRet (name en (match d with HRef c => HRef (cr_shallow_copy c) | HView v => HView (v_shallow_copy v) end), ONone)
  | Destroy x =>
      a <! jlift (var en x) ;; _ <! j_ma_destroy a ;; JRet (Env (set_nth x None (e_vars en)) (e_handles en), ONone)
  | Assign dst src =>
      s <! jlift (eval_nd chk en src) ;; d <! jlift (eval_nd chk en dst) ;;
      _ <! j_assign_nd chk (length (nd_ext d)) d s ;; JRet (en, ONone)
  | AssignVar x y =>
      a <! jlift (var en x) ;; b <! jlift (var en y) ;;
      _ <! j_ma_assign chk (Nat.eqb x y) a b ;; JRet (en, ONone)
  | CopyArray dst src =>
      s <! jlift (eval_nd chk en src) ;; d <! jlift (eval_nd chk en dst) ;;
      _ <! j_copy_array chk (length (nd_ext d)) d s ;; JRet (en, ONone)
  | Get e i => a <! jlift (eval_nd chk en e) ;; v <! j_get_element chk a i ;; JRet (en, OVal v)
  | Set_ e i v => a <! jlift (eval_nd chk en e) ;; _ <! j_set_element chk a i v ;; JRet (en, ONone)
  | GetB e i => a <! jlift (eval_nd chk en e) ;; v <! j_get_bracket chk a i ;; JRet (en, OVal v)
  | SetB e i v => a <! jlift (eval_nd chk en e) ;; _ <! j_set_bracket chk a i v ;; JRet (en, ONone)
  | Fill x l => a <! jlift (var en x) ;; _ <! j_cr_assign (ma_ref a) l ;; JRet (en, ONone)
  | FillRef h l =>
      d <! jlift (named en h) ;;
      match d with
      | HRef c => _ <! j_cr_assign c l ;; JRet (en, ONone)
      | HView _ => JUndef          
      end
  | ForEach e f =>
      a <! jlift (eval_nd chk en e) ;; _ <! j_for_each chk f (length (nd_ext a)) a ;; JRet (en, ONone)
  | Reindex x bases =>
      a <! jlift (var en x) ;; a' <! jlift (ma_reindex a bases) ;; JRet (update en x a', ONone)
  | ReindexAll x b =>
      a <! jlift (var en x) ;; a' <! jlift (ma_reindex1 a b) ;; JRet (update en x a', ONone)
  | Reshape x shape =>
      a <! jlift (var en x) ;; a' <! jlift (ma_reshape chk a shape) ;; JRet (update en x a', ONone)
  | ReindexNamed h bases =>
      d <! jlift (named en h) ;;
      match d with
      | HRef c => c' <! jlift (cr_reindex c bases) ;; JRet (rename en h (HRef c'), ONone)
      | HView v => v' <! jlift (v_reindex v bases) ;; JRet (rename en h (HView v'), ONone)
      end
  | ReindexNamedAll h b =>
      d <! jlift (named en h) ;;
      match d with
      | HRef c => c' <! jlift (cr_reindex1 c b) ;; JRet (rename en h (HRef c'), ONone)
      | HView v => v' <! jlift (v_reindex1 v b) ;; JRet (rename en h (HView v'), ONone)
      end
  | ReshapeRef h shape =>
      d <! jlift (named en h) ;;
      match d with
      | HRef c => c' <! jlift (cr_reshape chk c shape) ;; JRet (rename en h (HRef c'), ONone)
      | HView _ => JUndef          
      end
  | Resize x rs =>
      a <! jlift (var en x) ;; g <! jlift (extents_of extents rs) ;;
      a' <! j_ma_resize chk a g ;; JRet (update en x a', ONone)
  | ResizeList x shape =>
      a <! jlift (var en x) ;;
      a' <! j_ma_resize_list chk a shape ;; JRet (update en x a', ONone)
  | Compare op a b =>
      x <! jlift (eval_nd chk en a) ;; y <! jlift (eval_nd chk en b) ;;
      r <! j_compare op chk x y ;; JRet (en, OBool r)
  | Ask q e => o <! jlift (eval chk en e) ;; r <! jlift (answer q o) ;; JRet (en, r)
  end.

(** a thread: a program that catches every exception (History.run_catching) *)
Fixpoint j_thread (chk : bool) (en : env) (p : list (command * option nat)) : job (env * list (option output)) :=
  match p with
  | [] => JArm None (JRet (en, []))
  | (c, f) :: rest =>
      JArm f (jtry (j_exec chk en c)
        (fun r => q <! j_thread chk (fst r) rest ;; JRet (fst q, Some (snd r) :: snd q))
        (q <! j_thread chk en rest ;; JRet (fst q, None :: snd q)))
  end.

(** one step of a thread; None if it has finished or its next operation is undefined *)
Definition job_step {A} (m : job A) (h : heap T) (f : option nat) : option (job A * heap T * option nat) :=
  match m with
  | JRet _ | JThrow | JAbort | JUndef | JFuel => None
  | JArm f' k => Some (k, h, f')
  | JTick g b => match f with
                 | None => Some (g, h, None)
                 | Some O => Some (b, h, None)
                 | Some (S k) => Some (g, h, Some k)
                 end
  | JRead p k => match hread h p with Ok v => Some (k v, h, f) | _ => None end
  | JWrite p v k => match hwrite h p v with Ok h' => Some (k, h', f) | _ => None end
  | JAlloc aid n k => Some (k (Ptr (length h) 0), h ++ [Some (Block aid (repeat None n))], f)
  | JFree aid p n k => match deallocate aid p n (World h f) with Done _ w => Some (k, w_heap w, f) | _ => None end
  | JMake p v k => match hcell h p with
                   | Some None => match hset h p (Some v) with Some h' => Some (k, h', f) | None => None end
                   | _ => None
                   end
  | JKill p k => match destroy p (World h f) with Done _ w => Some (k, w_heap w, f) | _ => None end
  end.

(** run a thread to the end without interruption *)
Fixpoint run_job {A} (m : job A) : M T A :=
  match m with
  | JRet a => ret a
  | JThrow => fun w => Thrown w
  | JAbort => fun w => Aborted w
  | JUndef => fun _ => Undef
  | JFuel => fun _ => OutOfFuel
  | JArm f k => fun w => run_job k (World (w_heap w) f)
  | JTick g b => fun w => match w_fuse w with
                          | None => run_job g w
                          | Some O => run_job b (World (w_heap w) None)
                          | Some (S k) => run_job g (World (w_heap w) (Some k))
                          end
  | JRead p k => v <~ load p ;; run_job (k v)
  | JWrite p v k => _ <~ store p v ;; run_job k
  | JAlloc aid n k => fun w => run_job (k (Ptr (length (w_heap w)) 0))
                                 (World (w_heap w ++ [Some (Block aid (repeat None n))]) (w_fuse w))
  | JFree aid p n k => _ <~ deallocate aid p n ;; run_job k
  | JMake p v k => fun w => match hcell (w_heap w) p with
                            | Some None => match hset (w_heap w) p (Some v) with
                                           | Some h => run_job k (World h (w_fuse w)) | None => Undef end
                            | _ => Undef
                            end
  | JKill p k => _ <~ destroy p ;; run_job k
  end.

(** several threads on one memory: every thread has its own throw point; one step of
    thread i *)
Inductive c_step {A} : heap T * list (job A * option nat) -> heap T * list (job A * option nat) -> Prop :=
| c_one : forall h pool i m f m' h' f', nth_error pool i = Some (m, f) -> job_step m h f = Some (m', h', f') ->
    c_step (h, pool) (h', set_nth i (m', f') pool).
(** any number of steps, in any order of threads *)
Inductive c_steps {A} : heap T * list (job A * option nat) -> heap T * list (job A * option nat) -> Prop :=
| cs_here : forall s, c_steps s s
| cs_step : forall s s' s'', c_step s s' -> c_steps s' s'' -> c_steps s s''.
End Concur.

Arguments job : clear implicits.
Arguments JRet {T A} a.
Arguments JThrow {T A}.
Arguments JAbort {T A}.
Arguments JUndef {T A}.
Arguments JFuel {T A}.
Arguments JArm {T A} f k.
Arguments JTick {T A} good bad.
Arguments JRead {T A} p k.
Arguments JWrite {T A} p v k.
Arguments JAlloc {T A} aid n k.
Arguments JFree {T A} aid p n k.
Arguments JMake {T A} p v k.
Arguments JKill {T A} p k.
