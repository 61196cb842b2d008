(** Memory.v -- storage blocks, element lifetimes, exceptions.

    The C++ abstract machine that the classes run on: the allocator interface
    (allocate / deallocate), boost::alloc_construct_n / alloc_destroy_n, element
    reads and element assignment.  These are the library's external interfaces;
    their assumed behaviour is written out here. *)

From Verif Require Import Base Access.

Section Memory.
Context {T : Type}.

(** A storage slot: [None] is raw memory, [Some v] holds a constructed element. *)
Definition cell : Type := option T.

(** A block obtained from the allocator with identity [b_alloc]. *)
Record block := Block { b_alloc : nat; b_cells : list cell }.

(** All blocks ever allocated, by identity; [None] = returned to its allocator. *)
Definition heap : Type := list (option block).

(** [w_fuse = Some k]: the (k+1)-th operation that is able to throw (allocation,
    element construction, element assignment) will throw; [None]: none will. *)
Record world := World { w_heap : heap; w_fuse : option nat }.

(** Result of running a stateful operation.  Exceptional exits carry the state
    they leave behind. *)
Inductive res (A : Type) : Type :=
| Done (a : A) (w : world)
| Thrown (w : world)          (* a C++ exception propagates *)
| Aborted (w : world)         (* BOOST_ASSERT failed *)
| Undef                       (* undefined behaviour *)
| OutOfFuel.                  (* a loop did not finish in the allotted steps *)
Arguments Done {A} a w.
Arguments Thrown {A} w.
Arguments Aborted {A} w.
Arguments Undef {A}.
Arguments OutOfFuel {A}.

Definition M (A : Type) : Type := world -> res A.
Definition ret {A} (a : A) : M A := fun w => Done a w.
Definition bind {A B} (m : M A) (f : A -> M B) : M B :=
  fun w => match m w with
           | Done a w' => f a w'
           | Thrown w' => Thrown w'
           | Aborted w' => Aborted w'
           | Undef => Undef
           | OutOfFuel => OutOfFuel
           end.
Definition lift {A} (o : outcome A) : M A :=
  fun w => match o with Ok a => Done a w | Abort => Aborted w | UB => Undef end.

(** try { m } catch (...) { h; throw; } -- used for stack unwinding *)
Definition on_throw {A} (m : M A) (h : M unit) : M A :=
  fun w => match m w with
           | Thrown w' =>
               match h w' with
               | Done _ w'' => Thrown w''
               | Thrown w'' => Undef          (* throwing while unwinding: terminate *)
               | Aborted w'' => Aborted w''
               | Undef => Undef
               | OutOfFuel => OutOfFuel
               end
           | r => r
           end.

(** One operation that is allowed to throw. *)
Definition tick : M unit :=
  fun w => match w_fuse w with
           | None => Done tt w
           | Some O => Thrown (World (w_heap w) None)
           | Some (S k) => Done tt (World (w_heap w) (Some k))
           end.

(** * Raw access to cells *)

Definition hblock (h : heap) (b : nat) : option block :=
  match nth_error h b with Some (Some k) => Some k | _ => None end.

(** the slot a pointer refers to; [None] if there is no such slot *)
Definition hcell (h : heap) (p : ptr) : option cell :=
  match hblock h (p_blk p) with
  | Some k => if p_off p <? 0 then None else nth_error (b_cells k) (Z.to_nat (p_off p))
  | None => None
  end.

(** overwrite the slot a pointer refers to *)
Definition hset (h : heap) (p : ptr) (c : cell) : option heap :=
  match hcell h p, hblock h (p_blk p) with
  | Some _, Some k =>
      Some (set_nth (p_blk p)
              (Some (Block (b_alloc k) (set_nth (Z.to_nat (p_off p)) c (b_cells k)))) h)
  | _, _ => None
  end.

Definition set_heap (h : heap) : M unit := fun w => Done tt (World h (w_fuse w)).

(** reading an element (lvalue-to-rvalue conversion of a T&): the slot must
    exist and hold an element *)
Definition hread (h : heap) (p : ptr) : outcome T :=
  match hcell h p with Some (Some v) => Ok v | _ => UB end.
Definition load (p : ptr) : M T := fun w => lift (hread (w_heap w) p) w.

(** assigning to an element: the slot must hold an element *)
Definition hwrite (h : heap) (p : ptr) (v : T) : outcome heap :=
  match hcell h p with
  | Some (Some _) => match hset h p (Some v) with Some h' => Ok h' | None => UB end
  | _ => UB
  end.
Definition store (p : ptr) (v : T) : M unit :=
  fun w => match hwrite (w_heap w) p v with
           | Ok h => Done tt (World h (w_fuse w))
           | _ => Undef
           end.

(** element assignment [*dst = *src]; the element's operator= may throw (and
    then has not changed its target; Torn.v drops this restriction) *)
Definition elem_assign (dst src : ptr) : M unit :=
  bind (load src) (fun v => bind tick (fun _ => store dst v)).

(** * Allocators *)

(** Allocator::allocate(n): may throw (bad_alloc); fails for sizes beyond
    PTRDIFF_MAX elements.  New blocks get fresh identities (addresses of live
    blocks are distinct; addresses of freed blocks are never dereferenced by a
    program without UB, so reuse is not observable). *)
Definition allocate (aid : nat) (n : Z) : M ptr :=
  fun w =>
    match tick w with
    | Done _ w1 =>
        if (0 <=? n) && (n <=? idx_max) then
          Done (Ptr (length (w_heap w1)) 0)
               (World (w_heap w1 ++ [Some (Block aid (repeat None (Z.to_nat n)))])
                      (w_fuse w1))
        else Thrown w1
    | Thrown w1 => Thrown w1
    | _ => Undef
    end.

Definition all_raw (l : list cell) : bool :=
  forallb (fun c => match c with None => true | Some _ => false end) l.

(** Allocator::deallocate(p, n): p must be the start of a live block obtained
    from an equal allocator with the same n.  The model also demands that no
    element is still alive in the block (otherwise its destructor would never
    run). *)
Definition deallocate (aid : nat) (p : ptr) (n : Z) : M unit :=
  fun w =>
    match hblock (w_heap w) (p_blk p) with
    | Some k =>
        if Nat.eqb (b_alloc k) aid && (p_off p =? 0) &&
           (Z.of_nat (length (b_cells k)) =? n) && all_raw (b_cells k)
        then Done tt (World (set_nth (p_blk p) None (w_heap w)) (w_fuse w))
        else Undef
    | None => Undef
    end.

(** constructing an element in a raw slot (value-initialisation) *)
Definition construct (dflt : T) (p : ptr) : M unit :=
  bind tick (fun _ w =>
    match hcell (w_heap w) p with
    | Some None => match hset (w_heap w) p (Some dflt) with
                   | Some h => Done tt (World h (w_fuse w)) | None => Undef end
    | _ => Undef
    end).

(** destroying an element; destructors do not throw *)
Definition destroy (p : ptr) : M unit :=
  fun w =>
    match hcell (w_heap w) p with
    | Some (Some _) => match hset (w_heap w) p None with
                       | Some h => Done tt (World h (w_fuse w)) | None => Undef end
    | _ => Undef
    end.

(** boost::alloc_destroy_n(a, p, n): while (n > 0) destroy(p + --n) *)
Fixpoint alloc_destroy_n (p : ptr) (n : nat) : M unit :=
  match n with
  | O => ret tt
  | S k => bind (destroy (padd p (Z.of_nat k))) (fun _ => alloc_destroy_n p k)
  end.

(** boost::alloc_construct_n(a, p, n): value-initialise p[0..n); if element i
    throws, the guard destroys the i elements already constructed and the
    exception propagates.  [i] elements are already constructed. *)
Fixpoint alloc_construct_loop (dflt : T) (p : ptr) (i n : nat) : M unit :=
  match n with
  | O => ret tt
  | S k =>
      bind (on_throw (construct dflt (padd p (Z.of_nat i))) (alloc_destroy_n p i))
           (fun _ => alloc_construct_loop dflt p (S i) k)
  end.
Definition alloc_construct_n (dflt : T) (p : ptr) (n : nat) : M unit :=
  alloc_construct_loop dflt p 0 n.

End Memory.

Arguments Done {T A} a w.
Arguments Thrown {T A} w.
Arguments Aborted {T A} w.
Arguments Undef {T A}.
Arguments OutOfFuel {T A}.
Arguments cell : clear implicits.
Arguments block : clear implicits.
Arguments heap : clear implicits.
Arguments world : clear implicits.
Arguments res : clear implicits.
Arguments M : clear implicits.

Declare Scope m_scope.
Delimit Scope m_scope with m.
Notation "x <~ e ;; k" := (bind e (fun x => k))
  (at level 61, e at next level, right associativity).
