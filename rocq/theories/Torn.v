(** Torn.v -- element types whose assignment can fail half way.

    Memory.v lets an element assignment throw before it has any effect.  Here it
    may instead leave anything in its target: [u] is what the assignment that
    throws leaves behind in the element it was assigning to ([u] being the old
    value is the case of Memory.v).  The functions are those of Ops.v,
    MultiArray.v and History.v, line for line, with that one change. *)

From Verif Require Import Base StorageOrder Ranges Layout Access Objects Memory Ops MultiArray History.

Section Torn.
Context {T : Type}.
Variable u : T.

(** an operation that may throw, and then leaves [u] in the element at p: the
    element type's operator=, or in for_each (Val = xform(Val)) *)
Definition tear (p : ptr) : M T unit := on_throw tick (store p u).
(** element assignment *dst = *src: Memory.elem_assign *)
Definition torn_elem_assign (dst src : ptr) : M T unit :=
  v <~ load src ;; _ <~ tear dst ;; store dst v.

(** std::copy between rows: Ops.copy_rows *)
Definition torn_copy_rows (rec : nd -> nd -> M T unit) (chk : bool) (k : nat) (dst src : nd)
  : M T unit :=
  first <~ lift (nd_begin src) ;;
  last <~ lift (nd_end src) ;;
  result <~ lift (nd_begin dst) ;;
  copy_loop
    (fun f r =>
       match k with
       | O =>
           p <~ lift (it_deref_one chk f) ;;
           q <~ lift (it_deref_one chk r) ;;
           torn_elem_assign q p
       | S _ =>
           s <~ lift (it_deref_n chk f) ;;
           d <~ lift (it_deref_n chk r) ;;
           rec d s
       end)
    (loop_fuel first last) first last result.
(** dst = src: Ops.assign_nd (multi_array_ref.hpp:475-502, subarray.hpp:228-254,
    view.hpp:294-321) *)
Fixpoint torn_assign_nd (chk : bool) (n : nat) (dst src : nd) {struct n} : M T unit :=
  match n with
  | O => fun _ => Undef
  | S k =>
      _ <~ lift (assertM chk (Ok (list_eqb (nd_ext src) (nd_ext dst)))) ;;
      torn_copy_rows (torn_assign_nd chk k) chk k dst src
  end.
(** std::copy called directly: Ops.std_copy_nd (multi_array.hpp:255,267,280) *)
Definition torn_std_copy_nd (chk : bool) (n : nat) (dst src : nd) : M T unit :=
  match n with
  | O => fun _ => Undef
  | S k => torn_copy_rows (torn_assign_nd chk k) chk k dst src
  end.
(** copy_array: Ops.copy_dispatch, Ops.copy_array (copy_array.hpp:31-61) *)
Fixpoint torn_copy_dispatch (chk : bool) (n : nat) (dst src : nd) {struct n} : M T unit :=
  match n with
  | O => fun _ => Undef
  | S k => torn_copy_rows (torn_copy_dispatch chk k) chk k dst src
  end.
Definition torn_copy_array (chk : bool) (n : nat) (dst src : nd) : M T unit :=
  _ <~ lift (assertM chk (Ok (list_eqb (nd_ext src) (nd_ext dst)))) ;;
  torn_copy_dispatch chk n dst src.
(** for_each: Ops.for_each (example/for_each.hpp:22-46) *)
Fixpoint torn_for_each (chk : bool) (xform : T -> T) (n : nat) (a : nd) {struct n} : M T unit :=
  match n with
  | O => fun _ => Undef
  | S k =>
      first <~ lift (nd_begin a) ;;
      last <~ lift (nd_end a) ;;
      each_loop
        (fun i =>
           match k with
           | O => p <~ lift (it_deref_one chk i) ;; v <~ load p ;;
                  _ <~ tear p ;; store p (xform v)
           | S _ => s <~ lift (it_deref_n chk i) ;; torn_for_each chk xform k s
           end)
        (loop_fuel first last) first last
  end.
(** assign(first, last): Ops.assign_loop (multi_array_ref.hpp:127-138) *)
Fixpoint torn_assign_loop (out : ptr) (input : list T) (copy_count num : Z) : M T unit :=
  match input with
  | [] => ret tt
  | v :: rest =>
      if copy_count <? num then
        _ <~ tear out ;;
        _ <~ store out v ;;
        torn_assign_loop (padd out 1) rest (copy_count + 1) num
      else ret tt
  end.
Definition torn_cr_assign (c : cref) (input : list T) : M T unit :=
  torn_assign_loop (cr_base c) input 0 (cr_num c).
(** a(i) = v and a[i1]...[iN] = v: Ops.set_element, Ops.set_bracket *)
Definition torn_set_element (chk : bool) (a : nd) (idx : list Z) (v : T) : M T unit :=
  p <~ lift (access_element chk a idx) ;; _ <~ tear p ;; store p v.
Definition torn_set_bracket (chk : bool) (a : nd) (idx : list Z) (v : T) : M T unit :=
  p <~ lift (bracket chk a idx) ;; _ <~ tear p ;; store p v.

Section Objects.
Variable dflt : T.

(** copy_n on element pointers: MultiArray.copy_n_elems (algorithm.hpp:52-61) *)
Fixpoint torn_copy_n_elems (first : ptr) (count : nat) (result : ptr) : M T unit :=
  match count with
  | O => ret tt
  | S k =>
      _ <~ torn_elem_assign result first ;;
      torn_copy_n_elems (padd first 1) k (padd result 1)
  end.
(** the copy constructor: MultiArray.ma_copy (multi_array.hpp:229-234) *)
Definition torn_ma_copy (rhs : multi_array) : M T multi_array :=
  this <~ allocate_space dflt (ma_ref rhs) (ma_aid rhs) ;;
  _ <~ torn_copy_n_elems (ma_base rhs) (Z.to_nat (cr_num (ma_ref rhs))) (ma_base this) ;;
  ret this.
(** the converting constructors: MultiArray.ma_convert (multi_array.hpp:246-281) *)
Definition torn_ma_convert (chk : bool) (rhs : nd) (so : storage_order) (aid : nat)
  : M T multi_array :=
  let n := length (nd_ext rhs) in
  c <~ lift (cref_from_shape chk n null_ptr so (nd_base rhs) (nd_ext rhs)) ;;
  this <~ allocate_space dflt c aid ;;
  _ <~ torn_std_copy_nd chk n (cr_nd (ma_ref this)) rhs ;;
  ret this.
(** operator=(const multi_array&): MultiArray.ma_assign (multi_array.hpp:421-432) *)
Definition torn_ma_assign (chk : bool) (same : bool) (this other : multi_array) : M T unit :=
  if same then ret tt
  else torn_assign_nd chk (length (cr_ext (ma_ref this))) (cr_nd (ma_ref this)) (cr_nd (ma_ref other)).
(** resize: MultiArray.ma_resize, ma_resize_list (multi_array.hpp:435-516) *)
Definition torn_ma_resize (chk : bool) (this : multi_array) (g : extent_gen)
  : M T multi_array :=
  let n := length (cr_ext (ma_ref this)) in
  if Nat.eqb (eg_num g) n then
    new_array <~ ma_from_gen dflt chk g (cr_storage (ma_ref this)) (ma_aid this) ;;
    _ <~ on_throw
           (mins <~ lift (min_extents (cr_ext (ma_ref new_array)) (cr_ext (ma_ref this))) ;;
            new_ranges <~ lift (populate_all (cr_ib (ma_ref new_array)) mins) ;;
            old_ranges <~ lift (populate_all (cr_ib (ma_ref this)) mins) ;;
            view_old <~ lift (make_view chk (cr_nd (ma_ref this)) (IGen n n old_ranges)) ;;
            view_new <~ lift (make_view chk (cr_nd (ma_ref new_array)) (IGen n n new_ranges)) ;;
            torn_assign_nd chk n (v_nd view_new) (v_nd view_old))
           (ma_destroy new_array) ;;
    let '(this', new_array') := swap_internals this new_array in
    _ <~ ma_destroy new_array' ;;
    ret this'
  else fun _ => Undef.
Definition torn_ma_resize_list (chk : bool) (this : multi_array) (extents : list Z)
  : M T multi_array :=
  let n := length (cr_ext (ma_ref this)) in
  es <~ lift (copy_n extents n) ;;
  torn_ma_resize chk this (EGen n (map (fun e => ERange 0 (to_index e)) es)).

Variable eqT : T -> T -> bool.
Variable ltT : T -> T -> bool.

(** one command: History.exec; the commands not listed assign no elements *)
Definition torn_exec (chk : bool) (en : env) (c : command) : M T (env * output) :=
  match c with
  | NewCopy y => b <~ lift (var en y) ;; a <~ torn_ma_copy b ;; ret (declare en a, ONone)
  | NewFrom e so aid =>
      x <~ lift (eval_nd chk en e) ;; a <~ torn_ma_convert chk x so aid ;; ret (declare en a, ONone)
  | Assign dst src =>
      s <~ lift (eval_nd chk en src) ;; d <~ lift (eval_nd chk en dst) ;;
      _ <~ torn_assign_nd chk (length (nd_ext d)) d s ;; ret (en, ONone)
  | AssignVar x y =>
      a <~ lift (var en x) ;; b <~ lift (var en y) ;;
      _ <~ torn_ma_assign chk (Nat.eqb x y) a b ;; ret (en, ONone)
  | CopyArray dst src =>
      s <~ lift (eval_nd chk en src) ;; d <~ lift (eval_nd chk en dst) ;;
      _ <~ torn_copy_array chk (length (nd_ext d)) d s ;; ret (en, ONone)
  | Set_ e i v => a <~ lift (eval_nd chk en e) ;; _ <~ torn_set_element chk a i v ;; ret (en, ONone)
  | SetB e i v => a <~ lift (eval_nd chk en e) ;; _ <~ torn_set_bracket chk a i v ;; ret (en, ONone)
  | Fill x l => a <~ lift (var en x) ;; _ <~ torn_cr_assign (ma_ref a) l ;; ret (en, ONone)
  | FillRef h l =>
      d <~ lift (named en h) ;;
      match d with
      | HRef c => _ <~ torn_cr_assign c l ;; ret (en, ONone)
      | HView _ => fun _ => Undef
      end
  | ForEach e f =>
      a <~ lift (eval_nd chk en e) ;; _ <~ torn_for_each chk f (length (nd_ext a)) a ;; ret (en, ONone)
  | Resize x rs =>
      a <~ lift (var en x) ;; g <~ lift (extents_of extents rs) ;;
      a' <~ torn_ma_resize chk a g ;; ret (update en x a', ONone)
  | ResizeList x shape =>
      a <~ lift (var en x) ;;
      a' <~ torn_ma_resize_list chk a shape ;; ret (update en x a', ONone)
  | _ => exec dflt eqT ltT chk en c
  end.
End Objects.
End Torn.

(** a program that catches everything, History.run_handled; each command comes
    with the number of the operation inside it that throws and, if that is an
    element assignment, the value it leaves behind *)
Fixpoint torn_run {T} (dflt : T) (eqT ltT : T -> T -> bool) (chk : bool) (en : env)
         (p : list (command * option (nat * T))) (h : heap T) : res T (env * list (option output)) :=
  match p with
  | [] => Done (en, []) (World h None)
  | (c, f) :: rest =>
      match match f with
            | Some (k, u) => torn_exec u dflt eqT ltT chk en c (World h (Some k))
            | None => exec dflt eqT ltT chk en c (World h None)
            end with
      | Done (en', o) w =>
          match torn_run dflt eqT ltT chk en' rest (w_heap w) with
          | Done (en2, os) w2 => Done (en2, Some o :: os) w2
          | r => r
          end
      | Thrown w | Aborted w =>
          match torn_run dflt eqT ltT chk en rest (w_heap w) with
          | Done (en2, os) w2 => Done (en2, None :: os) w2
          | r => r
          end
      | Undef => Undef
      | OutOfFuel => OutOfFuel
      end
  end.
