(** Quota.v -- allocators with limited memory.

    The allocator with identity aid has room for [cap aid] elements; allocate
    throws bad_alloc when the blocks it has handed out and not got back, together
    with the new one, would exceed that.  The functions are those of MultiArray.v
    and History.v, line for line, with that allocate. *)

From Verif Require Import Base StorageOrder Ranges Layout Access Objects Memory Ops MultiArray History.

Section Quota.
Context {T : Type}.

(** how many elements the allocator's blocks hold now *)
Fixpoint used (aid : nat) (h : heap T) : Z :=
  match h with
  | [] => 0
  | Some b :: rest => (if Nat.eqb (b_alloc b) aid then Z.of_nat (length (b_cells b)) else 0) + used aid rest
  | None :: rest => used aid rest
  end.

Variable cap : nat -> Z.

(** Allocator::allocate(n): Memory.allocate *)
Definition q_allocate (aid : nat) (n : Z) : M T ptr :=
  fun w => if used aid (w_heap w) + n <=? cap aid then allocate aid n w else Thrown w.

Variable dflt : T.

(** allocate_space: MultiArray.allocate_space (multi_array.hpp:544-549) *)
Definition q_allocate_space (c : cref) (aid : nat) : M T multi_array :=
  p <~ q_allocate aid (cr_num c) ;;
  let c' := cr_set_base c p in
  _ <~ alloc_construct_n dflt p (Z.to_nat (cr_num c)) ;;
  ret (MA c' p (cr_num c) aid).
(** the constructors: MultiArray.ma_default ... ma_convert (multi_array.hpp:152-281) *)
Definition q_ma_default (chk : bool) (n : nat) (aid : nat) : M T multi_array :=
  so <~ lift (c_conversion n) ;;
  c <~ lift (cref_default chk n null_ptr so) ;;
  q_allocate_space c aid.
Definition q_ma_from_list (chk : bool) (n : nat) (extents : list Z) (so : storage_order) (aid : nat) : M T multi_array :=
  c <~ lift (cref_from_list chk n null_ptr extents so) ;;
  q_allocate_space c aid.
Definition q_ma_from_gen (chk : bool) (g : extent_gen) (so : storage_order) (aid : nat) : M T multi_array :=
  c <~ lift (cref_from_gen chk null_ptr g so) ;;
  q_allocate_space c aid.
Definition q_ma_copy (rhs : multi_array) : M T multi_array :=
  this <~ q_allocate_space (ma_ref rhs) (ma_aid rhs) ;;
  _ <~ copy_n_elems (ma_base rhs) (Z.to_nat (cr_num (ma_ref rhs))) (ma_base this) ;;
  ret this.
Definition q_ma_convert (chk : bool) (rhs : nd) (so : storage_order) (aid : nat) : M T multi_array :=
  let n := length (nd_ext rhs) in
  c <~ lift (cref_from_shape chk n null_ptr so (nd_base rhs) (nd_ext rhs)) ;;
  this <~ q_allocate_space c aid ;;
  _ <~ std_copy_nd chk n (cr_nd (ma_ref this)) rhs ;;
  ret this.
(** resize: MultiArray.ma_resize, ma_resize_list (multi_array.hpp:435-516) *)
Definition q_ma_resize (chk : bool) (this : multi_array) (g : extent_gen) : M T multi_array :=
  let n := length (cr_ext (ma_ref this)) in
  if Nat.eqb (eg_num g) n then
    new_array <~ q_ma_from_gen chk g (cr_storage (ma_ref this)) (ma_aid this) ;;
    _ <~ on_throw
           (mins <~ lift (min_extents (cr_ext (ma_ref new_array)) (cr_ext (ma_ref this))) ;;
            new_ranges <~ lift (populate_all (cr_ib (ma_ref new_array)) mins) ;;
            old_ranges <~ lift (populate_all (cr_ib (ma_ref this)) mins) ;;
            view_old <~ lift (make_view chk (cr_nd (ma_ref this)) (IGen n n old_ranges)) ;;
            view_new <~ lift (make_view chk (cr_nd (ma_ref new_array)) (IGen n n new_ranges)) ;;
            assign_nd chk n (v_nd view_new) (v_nd view_old))
           (ma_destroy new_array) ;;
    let '(this', new_array') := swap_internals this new_array in
    _ <~ ma_destroy new_array' ;;
    ret this'
  else fun _ => Undef.
Definition q_ma_resize_list (chk : bool) (this : multi_array) (extents : list Z) : M T multi_array :=
  let n := length (cr_ext (ma_ref this)) in
  es <~ lift (copy_n extents n) ;;
  q_ma_resize chk this (EGen n (map (fun e => ERange 0 (to_index e)) es)).

Variable eqT : T -> T -> bool.
Variable ltT : T -> T -> bool.

(** one command: History.exec; the commands not listed allocate nothing *)
Definition q_exec (chk : bool) (en : env) (c : command) : M T (env * output) :=
  match c with
  | NewDefault n aid => a <~ q_ma_default chk n aid ;; ret (declare en a, ONone)
  | NewList shape so aid =>
      a <~ q_ma_from_list chk (length shape) shape so aid ;; ret (declare en a, ONone)
  | NewRanges rs so aid =>
      g <~ lift (extents_of extents rs) ;;
      a <~ q_ma_from_gen chk g so aid ;; ret (declare en a, ONone)
  | NewCopy y => b <~ lift (var en y) ;; a <~ q_ma_copy b ;; ret (declare en a, ONone)
  | NewFrom e so aid =>
      x <~ lift (eval_nd chk en e) ;; a <~ q_ma_convert chk x so aid ;; ret (declare en a, ONone)
  | Resize x rs =>
      a <~ lift (var en x) ;; g <~ lift (extents_of extents rs) ;;
      a' <~ q_ma_resize chk a g ;; ret (update en x a', ONone)
  | ResizeList x shape =>
      a <~ lift (var en x) ;;
      a' <~ q_ma_resize_list chk a shape ;; ret (update en x a', ONone)
  | _ => exec dflt eqT ltT chk en c
  end.

(** a program that catches every exception: History.run_catching *)
Fixpoint q_run (chk : bool) (en : env) (p : list (command * option nat)) (h : heap T)
  : res T (env * list (option output)) :=
  match p with
  | [] => Done (en, []) (World h None)
  | (c, f) :: rest =>
      match q_exec chk en c (World h f) with
      | Done (en', o) w =>
          match q_run chk en' rest (w_heap w) with
          | Done (en2, os) w2 => Done (en2, Some o :: os) w2
          | r => r
          end
      | Thrown w =>
          match q_run chk en rest (w_heap w) with
          | Done (en2, os) w2 => Done (en2, None :: os) w2
          | r => r
          end
      | Aborted w => Aborted w
      | Undef => Undef
      | OutOfFuel => OutOfFuel
      end
  end.
End Quota.
