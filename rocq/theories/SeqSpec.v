(** SeqSpec.v -- what a generic algorithm is supposed to do: its meaning on plain
    sequences.

    Here an array is just a list of rows, a row the list of its elements in index
    order (for a one-dimensional array: the single element), an iterator a number.
    Nothing is shared and nothing is laid out in memory. *)

From Coq Require Import ZArith List Bool Arith.
From Verif Require Import Base Access Memory Algorithms Spec ReachSpec MemSpec.
Import ListNotations.
Local Open Scope Z_scope.

Section SeqSpec.
Context {T : Type}.
Variable eqT : T -> T -> bool.
Variable ltT : T -> T -> bool.

(** a sequence of rows; all rows have the same index bases and shape (empty for
    single elements) *)
Record sequence := Sequence { q_bases : list Z; q_shape : list Z; q_rows : list (list T) }.
Definition q_len (q : sequence) : Z := Z.of_nat (length (q_rows q)).

(** a saved row *)
Record saved := Saved { v_bases : list Z; v_shape : list Z; v_elems : list T }.

Record seqs := Seqs { ss_arrays : list sequence; ss_saved : list saved }.

(** an iterator into sequence number [c_seq], between 0 and the length; a reverse
    iterator at position p refers to the row before p *)
Record cur := Cur { c_seq : nat; c_rev : bool; c_pos : Z }.

Definition cur_move (st : seqs) (c : cur) (n : Z) : option cur :=
  match nth_error (ss_arrays st) (c_seq c) with
  | Some q => let p := if c_rev c then c_pos c - n else c_pos c + n in
              if (0 <=? p) && (p <=? q_len q) then Some (Cur (c_seq c) (c_rev c) p) else None
  | None => None
  end.
(** steps from c to d *)
Definition cur_distance (c d : cur) : option Z :=
  if Nat.eqb (c_seq c) (c_seq d) && Bool.eqb (c_rev c) (c_rev d)
  then Some (if c_rev c then c_pos c - c_pos d else c_pos d - c_pos c) else None.

(** a row of a sequence, or a saved row *)
Inductive slot := SRow (j : nat) (p : Z) | SSaved (t : nat).

Definition place_slot (st : seqs) (env : list cur) (p : place) : option slot :=
  match p with
  | PAt x n =>
      match nth_error env x with
      | Some c =>
          match nth_error (ss_arrays st) (c_seq c) with
          | Some q => let r := if c_rev c then c_pos c - n - 1 else c_pos c + n in
                      if (0 <=? r) && (r <? q_len q) then Some (SRow (c_seq c) r) else None
          | None => None
          end
      | None => None
      end
  | PTemp t => if (t <? length (ss_saved st))%nat then Some (SSaved t) else None
  end.

(** its index bases, shape and elements *)
Definition slot_get (st : seqs) (s : slot) : option (list Z * list Z * list T) :=
  match s with
  | SRow j p =>
      match nth_error (ss_arrays st) j with
      | Some q => match nth_error (q_rows q) (Z.to_nat p) with
                  | Some r => Some (q_bases q, q_shape q, r)
                  | None => None
                  end
      | None => None
      end
  | SSaved t =>
      match nth_error (ss_saved st) t with
      | Some v => Some (v_bases v, v_shape v, v_elems v)
      | None => None
      end
  end.
(** replace its elements *)
Definition slot_put (st : seqs) (s : slot) (r : list T) : seqs :=
  match s with
  | SRow j p =>
      match nth_error (ss_arrays st) j with
      | Some q => Seqs (set_nth j (Sequence (q_bases q) (q_shape q) (set_nth (Z.to_nat p) r (q_rows q)))
                                (ss_arrays st)) (ss_saved st)
      | None => st
      end
  | SSaved t =>
      match nth_error (ss_saved st) t with
      | Some v => Seqs (ss_arrays st) (set_nth t (Saved (v_bases v) (v_shape v) r) (ss_saved st))
      | None => st
      end
  end.

(** index tuple i is valid; its number in the row *)
Fixpoint valid_index (bases shape i : list Z) : bool :=
  match bases, shape, i with
  | [], [], [] => true
  | b :: bs, e :: es, k :: ks => (b <=? k) && (k <? b + e) && valid_index bs es ks
  | _, _, _ => false
  end.
Definition rank (bases shape i : list Z) : nat := Z.to_nat (row_major bases shape i).

Fixpoint shape_eqb (a b : list Z) : bool :=
  match a, b with
  | [], [] => true
  | x :: a', y :: b' => (x =? y) && shape_eqb a' b'
  | _, _ => false
  end.
(** elementwise equality *)
Fixpoint all_equal (l m : list T) : bool :=
  match l, m with
  | [], [] => true
  | x :: l', y :: m' => eqT x y && all_equal l' m'
  | _, _ => false
  end.
(** the first element that differs decides *)
Fixpoint first_less (l m : list T) : bool :=
  match l, m with
  | x :: l', y :: m' => if ltT x y then true else if ltT y x then false else first_less l' m'
  | _, _ => false
  end.
Definition both_rows (s t : slot) : bool :=
  match s, t with SRow _ _, SRow _ _ => true | SSaved _, SSaved _ => true | _, _ => false end.

Definition same_saved (s t : slot) : bool :=
  match s, t with SSaved i, SSaved j => Nat.eqb i j | _, _ => false end.

(** [f = Some k]: the (k+1)-th operation able to throw does.  Do n of them. *)
Definition spend_ops (f : option nat) (n : nat) : option (option nat) :=
  match f with
  | None => Some None
  | Some k => if (n <=? k)%nat then Some (Some (k - n)%nat) else None
  end.

(** how a piece of an algorithm ends: with a result, the iterators and the
    sequences; or by an exception, with the sequences as it leaves them, thrown
    while a row was being copied to a local variable ([copying]) or not *)
Inductive ending (A : Type) :=
| Finished (a : A) (env : list cur) (st : seqs) (f : option nat)
| Stopped (l : list sequence) (copying : bool).
Arguments Finished {A} a env st f.
Arguments Stopped {A} l copying.

(** the meaning of an algorithm; [None] when it leaves the contract: moves an
    iterator outside the sequence, uses the end, mixes iterators of different
    sequences, assigns rows of different shapes, uses an invalid index *)
Fixpoint on_sequences {A} (alg : algorithm T A) (env : list cur) (st : seqs) (f : option nat)
  : option (ending A) :=
  let get x := nth_error env x in
  match alg in algorithm _ A return option (ending A) with
  | AReturn a => Some (Finished a env st f)
  | ACopy x k => match get x with Some c => on_sequences k (env ++ [c]) st f | None => None end
  | AReverse x k =>
      match get x with
      | Some (Cur j false p) => on_sequences k (env ++ [Cur j true p]) st f
      | _ => None
      end
  | ABase x k =>
      match get x with
      | Some (Cur j true p) => on_sequences k (env ++ [Cur j false p]) st f
      | _ => None
      end
  | ASet x y k =>
      match get x, get y with
      | Some _, Some d => on_sequences k (set_nth x d env) st f
      | _, _ => None
      end
  | AInc x k =>
      match get x with
      | Some c => match cur_move st c 1 with
                  | Some d => on_sequences k (set_nth x d env) st f | None => None end
      | None => None
      end
  | ADec x k =>
      match get x with
      | Some c => match cur_move st c (-1) with
                  | Some d => on_sequences k (set_nth x d env) st f | None => None end
      | None => None
      end
  | AAdvance x n k =>
      match get x with
      | Some c => match cur_move st c n with
                  | Some d => on_sequences k (set_nth x d env) st f | None => None end
      | None => None
      end
  | ADistance x y k =>
      match get x, get y with
      | Some c, Some d => match cur_distance c d with
                          | Some n => on_sequences (k n) env st f | None => None end
      | _, _ => None
      end
  | ASame x y k =>
      match get x, get y with
      | Some c, Some d => match cur_distance c d with
                          | Some n => on_sequences (k (n =? 0)) env st f | None => None end
      | _, _ => None
      end
  | ABefore x y k =>
      match get x, get y with
      | Some c, Some d => match cur_distance c d with
                          | Some n => on_sequences (k (0 <? n)) env st f | None => None end
      | _, _ => None
      end
  | ARead p i k =>
      match place_slot st env p with
      | Some s =>
          match slot_get st s with
          | Some (bases, shape, r) =>
              if valid_index bases shape i then
                match nth_error r (rank bases shape i) with
                | Some v => on_sequences (k v) env st f | None => None end
              else None
          | None => None
          end
      | None => None
      end
  | AWrite p i v k =>
      match place_slot st env p with
      | Some s =>
          match slot_get st s with
          | Some (bases, shape, r) =>
              if valid_index bases shape i then
                match spend_ops f 1 with
                | Some f' => on_sequences k env (slot_put st s (set_nth (rank bases shape i) v r)) f'
                | None => Some (Stopped (ss_arrays st) false)
                end
              else None
          | None => None
          end
      | None => None
      end
  | AAssign p q k =>
      match place_slot st env p, place_slot st env q with
      | Some s, Some t =>
          match slot_get st s, slot_get st t with
          | Some (_, shape, old), Some (_, shape', new) =>
              if same_saved s t then on_sequences k env st f   (* v = v does nothing *)
              else if shape_eqb shape shape' then
                match spend_ops f (length new), f with
                | Some f', _ => on_sequences k env (slot_put st s new) f'
                | None, Some n =>       (* element n of the row throws *)
                    Some (Stopped (ss_arrays (slot_put st s (firstn n new ++ skipn n old))) false)
                | None, None => None
                end
              else None
          | _, _ => None
          end
      | _, _ => None
      end
  | AEqual p q k =>
      match place_slot st env p, place_slot st env q with
      | Some s, Some t =>
          match slot_get st s, slot_get st t with
          | Some (_, shape, u), Some (_, shape', v) =>
              if both_rows s t && (length shape =? length shape')%nat then
                on_sequences (k (shape_eqb shape shape' && all_equal u v)) env st f
              else None
          | _, _ => None
          end
      | _, _ => None
      end
  | ALess p q k =>
      match place_slot st env p, place_slot st env q with
      | Some s, Some t =>
          match slot_get st s, slot_get st t with
          | Some (_, shape, u), Some (_, shape', v) =>
              if both_rows s t && shape_eqb shape shape' then on_sequences (k (first_less u v)) env st f
              else None
          | _, _ => None
          end
      | _, _ => None
      end
  | ASave p body k =>
      match place_slot st env p with
      | Some (SRow j r) =>
          match slot_get st (SRow j r) with
          | Some (bases, (_ :: _) as shape, row) =>
              (* one allocation, then constructing and assigning every element *)
              match spend_ops f (1 + length row + length row) with
              | Some f' =>
                  match on_sequences body env (Seqs (ss_arrays st) (ss_saved st ++ [Saved bases shape row])) f' with
                  | Some (Finished b env' st' f'') =>     (* the copy is gone *)
                      on_sequences (k b) (firstn (length env) env')
                        (Seqs (ss_arrays st') (firstn (length (ss_saved st)) (ss_saved st'))) f''
                  | Some (Stopped l c) => Some (Stopped l c)
                  | None => None
                  end
              | None => Some (Stopped (ss_arrays st) true)
              end
          | _ => None
          end
      | _ => None
      end
  end.

(** the iterators an algorithm is called with: begin and end of each sequence *)
Fixpoint ranges_from (j : nat) (l : list sequence) : list cur :=
  match l with
  | [] => []
  | q :: rest => Cur j false 0 :: Cur j false (q_len q) :: ranges_from (S j) rest
  end.
Definition call_on_sequences {A} (alg : algorithm T A) (l : list sequence) (f : option nat) : option (ending A) :=
  on_sequences alg (ranges_from 0 l) (Seqs l []) f.

(** in heap h, array a is the sequence q: a's first dimension counts the rows, and
    element (b + p, b1 + k1, ...) of a is element (k1, ...) of row p *)
Definition is_sequence (h : heap T) (a : nd) (q : sequence) : Prop :=
  exists b size,
    nd_base a = b :: q_bases q /\ nd_ext a = size :: q_shape q /\ q_len q = size /\
    forall p row, nth_error (q_rows q) p = Some row ->
      Forall2 (fun k v => reads h a ((b + Z.of_nat p) :: tadd (q_bases q) k) v) (positions (q_shape q)) row.

(** a copy of a row fits in memory when laid out in C order *)
Definition rows_fit (a : nd) : Prop :=
  tl (nd_ext a) <> [] ->
  layout_ok (StorageOrder.so_from_c (length (tl (nd_ext a)))) (tl (nd_base a)) (tl (nd_ext a)).

(** the arrays have no elements in common *)
Definition separate (l : list nd) : Prop :=
  forall i j a b, i <> j -> nth_error l i = Some a -> nth_error l j = Some b -> no_overlap a b.

(** every slot outside the arrays keeps what it holds *)
Definition elsewhere_same (l : list nd) (h h' : heap T) : Prop :=
  forall p c, hcell h p = Some c -> (forall a, In a l -> ~ element_of a p) -> hcell h' p = Some c.
(** storage obtained meanwhile has been returned *)
Definition no_leak (h h' : heap T) : Prop := forall b, (length h <= b)%nat -> hblock h' b = None.

(** ... after an exception: the copy constructor that threw may keep its own block
    (C25), nothing else is left *)
Definition released (copying : bool) (h h' : heap T) : Prop :=
  if copying then exists x, forall b, (length h <= b)%nat -> b <> x -> hblock h' b = None
  else no_leak h h'.

(** each array is part of a well-formed array, and copies of its rows fit *)
Definition usable_arrays (l : list nd) : Prop :=
  Forall (fun a => exists c, array_object c /\ derived c a) l /\ Forall rows_fit l /\ separate l.

(** u does not come after v *)
Definition row_le (u v : list T) : Prop := first_less v u = false.
End SeqSpec.

(** arrays with one dimension have elements where others have rows *)
Definition one_dim (a : nd) : bool := (length (nd_ext a) =? 1)%nat.
Arguments sequence : clear implicits.
Arguments saved : clear implicits.
Arguments seqs : clear implicits.
Arguments ending : clear implicits.
Arguments Finished {T A} a env st f.
Arguments Stopped {T A} l copying.
