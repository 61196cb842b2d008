(** ConstSpec.v -- vocabulary for C45: read-only access, loopholes, and the
    storage a value gives access to. *)

From Coq Require Import ZArith List Bool.
From Verif Require Import Base StorageOrder Ranges Layout Access Objects Memory Ops MultiArray Const.
Import ListNotations.

(** the modifying operations that change, replace or destroy elements (reindex
    and reshape only relabel them) *)
Definition changes_elements (w : modifier) : bool :=
  match w with
  | WElement | WArray | WRange | WResize => true
  | WReindex | WReshape => false
  end.

(** the types that promise read-only access: const objects, the const_* classes
    over T const*, views of class const_multi_array_view, const iterators, pointers
    to const and references to const.  The one exception is const_sub_array<T,N,T*>,
    the base class of sub_array. *)
Definition read_only (t : typ) : bool :=
  match t with
  | TObj (KConstRef PConst) _ _ | TObj (KConstSub PConst) _ _ | TObj (KConstView _) _ _ => true
  | TObj (KConstSub PMut) _ _ => false
  | TObj _ _ const => const
  | TIter p _ | TRev p _ | TPtr p => match p with PConst => true | PMut => false end
  | TElem const => const
  end.

(** a loophole: a step the compiler accepts that takes a const handle to a handle
    of a mutable class on the same elements - copying the handle, or referring to a
    const sub_array through its base class *)
Definition loophole (t : typ) (o : op) : bool :=
  match t with
  | TObj KMultiArray _ true | TObj KRef _ true =>
      match o with OCopy KRef | OCopy (KConstRef PMut) => true | _ => false end
  | TObj (KConstRef PMut) _ true =>
      match o with OCopy (KConstRef PMut) => true | _ => false end
  | TObj KSub _ true =>
      match o with OCopy KSub | OCopy (KConstSub PMut) | OUpcast => true | _ => false end
  | TObj KView _ true =>
      match o with OCopy KView => true | _ => false end
  | _ => false
  end.

(** no step of the chain is a loophole *)
Fixpoint no_loophole (t : typ) (p : list op) : bool :=
  match p with
  | [] => true
  | o :: rest => negb (loophole t o) &&
      match op_type t o with Some t' => no_loophole t' rest | None => true end
  end.

(** some chain of steps, none of them a loophole, leads from an expression of type
    t to one that may be modified *)
Definition can_modify (t : typ) : Prop :=
  exists p t' w, chain_type t p = Some t' /\ no_loophole t p = true /\
                 changes_elements w = true /\ modifier_ok t' w = true.

(** number of dimensions an expression still has *)
Definition typ_dims (t : typ) : nat :=
  match t with TObj _ n _ => n | TIter _ n => n | TRev _ n => n | TElem _ => 1 | TPtr _ => 1 end.

(** the read-only counterpart of a type *)
Definition read_only_version (t : typ) : typ :=
  match t with
  | TObj KMultiArray n _ => TObj KMultiArray n true
  | TObj KRef n _ => TObj KRef n true
  | TObj (KConstRef p) n k => TObj (KConstRef p) n true
  | TObj KSub n _ | TObj (KConstSub _) n _ => TObj (KConstSub PConst) n false
  | TObj KView n _ | TObj (KConstView _) n _ => TObj (KConstView PConst) n false
  | TIter _ n => TIter PConst n
  | TRev _ n => TRev PConst n
  | TElem _ => TElem true
  | TPtr _ => TPtr PConst
  end.

(** a step that reads: a member call, or following an iterator or pointer *)
Definition is_access (o : op) : bool :=
  match o with
  | OMember _ | ODeref | OSubscript _ | OArrow | OMove _ | OBase | OReverse | OAddress => true
  | _ => false
  end.

Section ConstSpec.
Context {T : Type}.

(** no statement of the program is a loophole *)
Fixpoint program_without_loophole (ts : list typ) (p : list (@statement T)) : bool :=
  match p with
  | [] => true
  | s :: rest =>
      match s with
      | CLet x o => match nth_error ts x with Some t => negb (loophole t o) | None => true end
      | _ => true
      end &&
      match statement_types ts s with Some ts' => program_without_loophole ts' rest | None => true end
  end.

(** the storage block a value points into *)
Definition block_of (v : value) : nat :=
  match v with
  | VOwn a => p_blk (cr_base (ma_ref a))
  | VRef c => p_blk (cr_base c)
  | VSub a => p_blk (nd_org a)
  | VView v => p_blk (v_base v)
  | VIter i => p_blk (it_base i)
  | VRev r => p_blk (it_base (ri_base r))
  | VElem p | VPtr p => p_blk p
  end.

(** the program has ended - normally, by an exception or by a failed assertion -
    and left this heap *)
Definition leaves_heap {A} (r : res T A) (h : heap T) : Prop :=
  match r with
  | Done _ w | Thrown w | Aborted w => w_heap w = h
  | _ => False
  end.
End ConstSpec.
