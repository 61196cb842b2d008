(** RepoTests.v -- the test suite of /repo, run in the model.

    The programs of /repo/test (those the Jamfile runs, and vc_death.cpp) and of
    /repo/example transcribed as programs of the model and computed by the
    kernel.  These are tests of the model, not proofs about the code: they show
    that the model gives the results the authors of the library expect.  A raw
    buffer ([int data[24]]) is the storage of a one-dimensional array; elements are
    integers where the tests use double. *)

From Coq Require Import ZArith List Bool.
From Verif Require Import Base StorageOrder Ranges Layout Access Objects Memory Ops MultiArray Algorithms UserCode History Spec.
Import ListNotations.
Local Open Scope Z_scope.

(** * running a transcribed test *)

Definition command := @History.command Z.
Definition output := @History.output Z.

(** all observations of a program that ran to its end, and the final state *)
Definition finish (chk : bool) (p : list command) : option (list output * env * heap Z) :=
  match History.run 0 Z.eqb Z.ltb chk (Env [] []) p (World [] None) with
  | Done (en, os) w => Some (os, en, w_heap w)
  | _ => None
  end.
Definition silent (o : output) : bool := match o with ONone => false | _ => true end.
(** what it observes; commands without a result are left out *)
Definition observed (chk : bool) (p : list command) : option (list output) :=
  match finish chk p with Some (os, _, _) => Some (filter silent os) | None => None end.

Definition output_eqb (a b : output) : bool :=
  match a, b with
  | ONone, ONone => true
  | OVal u, OVal v => u =? v
  | OInt u, OInt v => u =? v
  | OBool u, OBool v => Bool.eqb u v
  | OInts u, OInts v => if list_eq_dec Z.eq_dec u v then true else false
  | _, _ => false
  end.
Fixpoint outputs_eqb (a b : list output) : bool :=
  match a, b with
  | [], [] => true
  | u :: a', v :: b' => output_eqb u v && outputs_eqb a' b'
  | _, _ => false
  end.
(** a test: a program and what it must observe, with assertions and without *)
Definition passes (t : list command * list output) : bool :=
  forallb (fun chk => match observed chk (fst t) with Some os => outputs_eqb os (snd t) | None => false end) [true; false].

Definition vals (l : list Z) : list output := map (fun v => OVal v) l.
Definition upto (n : nat) : list Z := map Z.of_nat (seq 0 n).
Definition yes : output := OBool true.
Definition no : output := OBool false.
Definition c3 := so_from_c 3.
Definition f3 := so_from_fortran 3.
Definition c1 := so_from_c 1.
Definition c2 := so_from_c 2.
Definition rng (a b : Z) : subscript := Slice (Some a) (Some b) 1.
Definition rng3 (a b s : Z) : subscript := Slice (Some a) (Some b) s.
Definition everything : subscript := Slice None None 1.
Definition getb (e : expr) (is : list (list Z)) : list command := map (GetB e) is.
Definition get (e : expr) (is : list (list Z)) : list command := map (Get e) is.

(** * test/generative_tests.hpp *)

(** lines 202-213 *)
Definition orders : list (storage_order * storage_order) :=
  [ (so_from_c 3, so_from_c 4); (so_from_fortran 3, so_from_fortran 4);
    (SO [2; 0; 1]%nat [false; true; true], SO [2; 0; 1; 3]%nat [false; true; true; true]) ].

(** lines 215-250: the modifiers and the index bases they leave *)
Inductive modifier := MNone | MSetBase | MReindex | MReshape.
Definition modifiers := [MNone; MSetBase; MReindex; MReshape].
Definition modify (m : modifier) (x : nat) (shape : list Z) : list command :=
  match m with
  | MNone => []
  | MSetBase => [ReindexAll x 1]
  | MReindex => [Reindex x [1; 2; 3; 4]]
  | MReshape => [Reshape x (rev shape); Reshape x shape]
  end.
Definition modify_ref (m : modifier) (h : nat) (shape : list Z) : list command :=
  match m with
  | MNone => []
  | MSetBase => [ReindexNamedAll h 1]
  | MReindex => [ReindexNamed h [1; 2; 3; 4]]
  | MReshape => [ReshapeRef h (rev shape); ReshapeRef h shape]
  end.
Definition bases_after (m : modifier) (n : nat) : list Z :=
  match m with
  | MNone | MReshape => repeat 0 n
  | MSetBase => repeat 1 n
  | MReindex => firstn n [1; 2; 3; 4]
  end.

(** lines 108-201: the seven 2x3x4 objects.  [assign] is the code that gives the
    elements their values (lines 73-91 or the test's own); it is run on the
    mutable object.  The result is the setting-up code, the object to be tested
    and its index bases *)
Inductive object := OMultiArray | OMultiArrayRef | OConstRef | OSubArray | OConstSubArray | OArrayView | OConstView.
Definition objects := [OMultiArray; OMultiArrayRef; OConstRef; OSubArray; OConstSubArray; OArrayView; OConstView].
Definition set_up (o : object) (so3 so4 : storage_order) (m : modifier) (assign : expr -> list Z -> list command)
  : list command * expr * list Z :=
  match o with
  | OMultiArray =>
      let bs := bases_after m 3 in
      (NewRanges [(0, 2); (0, 3); (0, 4)] so3 0 :: modify m 0 [2; 3; 4] ++ assign (Var 0) bs, Var 0, bs)
  | OMultiArrayRef =>
      let bs := bases_after m 3 in
      ([NewList [24] c1 0; NewRefRanges 0 0 [(0, 2); (0, 3); (0, 4)] so3] ++ modify_ref m 0 [2; 3; 4] ++ assign (Named 0) bs, Named 0, bs)
  | OConstRef =>
      let bs := bases_after m 3 in
      ([NewList [24] c1 0; NewRefRanges 0 0 [(0, 2); (0, 3); (0, 4)] so3] ++ modify_ref m 0 [2; 3; 4] ++ assign (Named 0) bs ++ [NewAlias 0], Named 1, bs)
  | OSubArray | OConstSubArray =>
      let bs := tl (bases_after m 4) in
      (NewRanges [(0, 2); (0, 2); (0, 3); (0, 4)] so4 0 :: modify m 0 [2; 2; 3; 4] ++ assign (Sub (Var 0) 1) bs, Sub (Var 0) 1, bs)
  | OArrayView =>
      let bs := bases_after m 3 in
      let b k := nth k bs 0 in
      (NewRanges [(0, 4); (0, 5); (0, 6)] so3 0 :: modify m 0 [4; 5; 6] ++
       [NewView (Var 0) [rng (b 0%nat + 1) (b 0%nat + 3); rng (b 1%nat + 1) (b 1%nat + 4); rng (b 2%nat + 1) (b 2%nat + 5)]] ++
       assign (Named 0) [0; 0; 0], Named 0, [0; 0; 0])
  | OConstView =>
      let bs := bases_after m 3 in
      let b k := nth k bs 0 in
      (NewRanges [(0, 4); (0, 5); (0, 6)] so3 0 :: modify m 0 [4; 5; 6] ++
       [NewView (Var 0) [rng (b 0%nat + 1) (b 0%nat + 3); rng (b 1%nat + 1) (b 1%nat + 4); rng (b 2%nat + 1) (b 2%nat + 5)]] ++
       assign (Named 0) [0; 0; 0] ++ [NewAlias 0], Named 1, [0; 0; 0])
  end.
Definition configurations : list (object * (storage_order * storage_order) * modifier) :=
  list_prod (list_prod objects orders) modifiers.

(** lines 73-91 assign_if_not_const: A[i][j][k] = num++ *)
Definition number (e : expr) (bs : list Z) : list command :=
  map (fun iv => SetB e (fst iv) (snd iv)) (combine (tuples bs [2; 3; 4]) (upto 24)).

Definition generate (assign : expr -> list Z -> list command)
  (test : expr -> list Z -> list command * list output) : list (list command * list output) :=
  map (fun c => let '(o, (so3, so4), m) := c in
                let '(p, e, bs) := set_up o so3 so4 m assign in
                let '(q, os) := test e bs in (p ++ q, os)) configurations.

(** test/access.cpp: 84 configurations *)
Definition test_access (e : expr) (bs : list Z) : list command * list output :=
  let is := tuples bs [2; 3; 4] in
  (Ask QBases e :: getb e is ++ get e is, OInts bs :: vals (upto 24) ++ vals (upto 24)).
Example repo_access : forallb passes (generate number test_access) = true /\ length (generate number test_access) = 84%nat.
Proof. split; vm_compute; reflexivity. Qed.

(** test/slice.cpp: three views of every object, read with [] and with () *)
Definition at_ (bs i : list Z) : Z := match bs, i with
  | [b0; b1; b2], [i0; i1; i2] => (i0 - b0) * 12 + (i1 - b1) * 4 + (i2 - b2) | _, _ => -1 end.
Definition test_slice (e : expr) (bs : list Z) : list command * list output :=
  let b k := nth k bs 0 in
  let b0 := b 0%nat in let b1 := b 1%nat in let b2 := b 2%nat in
  let v1 := View_of e [rng (b0+0) (b0+2); rng (b1+1) (b1+3); rng3 (b2+0) (b2+4) 2] in
  let v2 := View_of e [rng (b0+0) (b0+2); At (b1+1); rng3 (b2+0) (b2+4) 2] in
  let v3 := View_of e [rng (b0+0) (b0+2); rng (b1+0) (b1+2); rng3 (b2+2) (b2+0) (-1)] in
  let is3 := tuples [0; 0; 0] [2; 2; 2] in let is2 := tuples [0; 0] [2; 2] in
  let x1 := map (fun i => match i with [i; j; k] => at_ bs [b0+i; b1+j+1; b2+k*2] | _ => -1 end) is3 in
  let x2 := map (fun i => match i with [i; j] => at_ bs [b0+i; b1+1; b2+j*2] | _ => -1 end) is2 in
  let x3 := map (fun i => match i with [i; j; k] => at_ bs [b0+i; b1+j; b2+2-k] | _ => -1 end) is3 in
  (getb v1 is3 ++ get v1 is3 ++ getb v2 is2 ++ get v2 is2 ++ getb v3 is3 ++ get v3 is3,
   vals (x1 ++ x1 ++ x2 ++ x2 ++ x3 ++ x3)).
Example repo_slice : forallb passes (generate number test_slice) = true.
Proof. vm_compute. reflexivity. Qed.

(** test/assign.cpp: A = filler for the mutable objects *)
Definition descending : list Z := map (fun k => 99 - k) (upto 24).
Definition is_mutable (o : object) : bool := match o with OConstRef | OConstSubArray | OConstView => false | _ => true end.
Definition test_assign (e : expr) (bs : list Z) : list command * list output :=
  ([NewRanges [(0, 2); (0, 3); (0, 4)] c3 0; Fill 1 descending] ++
   (match e with Var 0 => [AssignVar 0 1] | _ => [Assign e (Var 1)] end) ++
   getb e (tuples bs [2; 3; 4]) ++ [Compare CEq e (Var 1)], vals descending ++ [yes]).
Example repo_assign : forallb passes (map snd (filter (fun ct => is_mutable (fst (fst (fst ct))))
    (combine configurations (generate number test_assign)))) = true.
Proof. vm_compute. reflexivity. Qed.

(** test/assign_to_array.cpp: array3 acopy(A); the multi_array is copied by its
    copy constructor, the other objects are converted (C order by default) *)
Definition test_assign_to_array (e : expr) (bs : list Z) : list command * list output :=
  ([match e with Var x => NewCopy x | _ => NewFrom e c3 0 end] ++
   [Ask QBases (Var 1)] ++ getb (Var 1) (tuples bs [2; 3; 4]) ++ [Compare CEq (Var 1) e], OInts bs :: vals (upto 24) ++ [yes]).
Example repo_assign_to_array : forallb passes (generate number test_assign_to_array) = true.
Proof. vm_compute. reflexivity. Qed.

(** * test/iterators.cpp *)

(** the nested loops of the test, with iterators and with reverse iterators: the
    addresses of the elements in the order of the visit *)
Fixpoint visit (chk : bool) (n : nat) (a : nd) {struct n} : outcome (list ptr) :=
  match n with
  | O => UB
  | S k =>
      i <- nd_begin a ;; e <- nd_end a ;;
      (fix loop (fuel : nat) (i : iter) : outcome (list ptr) :=
         if it_equal i e then Ok []
         else match fuel with
              | O => UB
              | S f =>
                  here <- match k with
                          | O => p <- it_deref_one chk i ;; Ok [p]
                          | S _ => s <- it_deref_n chk i ;; visit chk k s
                          end ;;
                  j <- it_inc i ;; rest <- loop f j ;; Ok (here ++ rest)
              end) 9%nat i
  end.
Fixpoint rvisit (chk : bool) (n : nat) (a : nd) {struct n} : outcome (list ptr) :=
  match n with
  | O => UB
  | S k =>
      i <- nd_rbegin a ;; e <- nd_rend a ;;
      (fix loop (fuel : nat) (i : riter) : outcome (list ptr) :=
         if ri_equal i e then Ok []
         else match fuel with
              | O => UB
              | S f =>
                  here <- match k with
                          | O => p <- ri_deref_one chk i ;; Ok [p]
                          | S _ => s <- ri_deref_n chk i ;; rvisit chk k s
                          end ;;
                  j <- ri_inc i ;; rest <- loop f j ;; Ok (here ++ rest)
              end) 9%nat i
  end.
Fixpoint read_at (h : heap Z) (ps : list ptr) : outcome (list Z) :=
  match ps with [] => Ok [] | p :: rest => v <- hread h p ;; vs <- read_at h rest ;; Ok (v :: vs) end.
Fixpoint write_at (h : heap Z) (l : list (ptr * Z)) : outcome (heap Z) :=
  match l with [] => Ok h | (p, v) :: rest => h' <- hwrite h p v ;; write_at h' rest end.
(** lines 26-38 (assignment through iterators), 104-111, 113-125, 141-154 *)
Definition iterator_test (chk : bool) (en : env) (h : heap Z) (e : expr) : outcome (list Z * list Z * bool * Z) :=
  a <- eval_nd chk en e ;;
  ps <- visit chk 3 a ;; h' <- write_at h (combine ps (upto 24)) ;;
  i1 <- nd_begin a ;; i2 <- nd_end a ;; less <- it_less i1 i2 ;; d <- it_distance i1 i2 ;;
  qs <- rvisit chk 3 a ;; up <- read_at h' ps ;; down <- read_at h' qs ;;
  Ok (up, down, less, d).
Definition nothing (_ : expr) (_ : list Z) : list command := [].
Definition iterators_pass (chk : bool) (c : object * (storage_order * storage_order) * modifier) : bool :=
  let '(o, (so3, so4), m) := c in
  let '(p, e, _) := set_up o so3 so4 m nothing in
  match finish chk p with
  | Some (_, en, h) =>
      match iterator_test chk en h e with
      | Ok (up, down, less, d) =>
          outputs_eqb (vals up) (vals (upto 24)) && outputs_eqb (vals down) (vals (rev (upto 24))) && less && (d =? 2)
      | _ => false
      end
  | None => false
  end.
Example repo_iterators : forallb (iterators_pass true) configurations && forallb (iterators_pass false) configurations = true.
Proof. vm_compute. reflexivity. Qed.

(** * test/constructors.cpp and test/allocators.cpp *)

(** check_shape: lines 27-39, down to the elements *)
Definition shown (e : expr) (sizes strides : list Z) : list command * list output :=
  ([Ask QNum e; Ask QSize e; Ask QShape e; Ask QStrides e],
   [OInt (prod sizes); OInt (hd 0 sizes); OInts sizes; OInts strides]).
Definition check_shape (e : expr) (sizes strides : list Z) : list command * list output :=
  let t0 := shown e sizes strides in
  let t1 := shown (Sub e 0) (tl sizes) (tl strides) in
  let t2 := shown (Sub (Sub e 0) 0) (tl (tl sizes)) (tl (tl strides)) in
  (fst t0 ++ fst t1 ++ fst t2, snd t0 ++ snd t1 ++ snd t2).
Definition then_check (p : list command) (t : list command * list output) (q : list command * list output)
  : list command * list output := (p ++ fst t ++ fst q, snd t ++ snd q).
Definition threes := [(0, 3); (0, 3); (0, 3)].
Definition vals45 : list Z := repeat 45 27.
Definition same27 (a b : expr) : list command * list output := ([Compare CEq a b; Compare CEq b a], [yes; yes]).
Definition done : list command * list output := ([], []).

Example repo_constructors : forallb passes
  [ (* default constructor *)
    ([NewDefault 3 0; Destroy 0], []);
    (* constructor 1 *)
    then_check [NewList [3; 3; 3] c3 0] (check_shape (Var 0) [3; 3; 3] [9; 3; 1]) done;
    then_check [NewList [27] c1 0; NewRefList 0 0 [3; 3; 3] c3] (check_shape (Named 0) [3; 3; 3] [9; 3; 1]) done;
    (* constructor 1, Fortran order *)
    then_check [NewList [3; 3; 3] f3 0] (check_shape (Var 0) [3; 3; 3] [1; 3; 9]) done;
    then_check [NewList [27] c1 0; NewRefList 0 0 [3; 3; 3] f3] (check_shape (Named 0) [3; 3; 3] [1; 3; 9]) done;
    (* constructor 2 *)
    then_check [NewRanges threes c3 0] (check_shape (Var 0) [3; 3; 3] [9; 3; 1]) done;
    then_check [NewList [27] c1 0; NewRefRanges 0 0 threes c3] (check_shape (Named 0) [3; 3; 3] [9; 3; 1]) done;
    (* copy constructors *)
    then_check [NewList [3; 3; 3] c3 0; Fill 0 vals45; NewCopy 0] (check_shape (Var 1) [3; 3; 3] [9; 3; 1]) (same27 (Var 0) (Var 1));
    then_check [NewList [27] c1 0; NewRefList 0 0 [3; 3; 3] c3; NewAlias 0] (check_shape (Named 1) [3; 3; 3] [9; 3; 1]) done;
    (* conversion construction *)
    then_check [NewList [3; 3; 3] c3 0; Fill 0 vals45; NewRefOf 0] (check_shape (Named 0) [3; 3; 3] [9; 3; 1]) done;
    then_check [NewList [27] c1 0; NewRefList 0 0 [3; 3; 3] c3; FillRef 0 vals45; NewAlias 0] (check_shape (Named 1) [3; 3; 3] [9; 3; 1]) done;
    (* assignment operator *)
    then_check [NewList [3; 3; 3] c3 0; NewList [3; 3; 3] c3 0; Fill 0 vals45; AssignVar 1 0] (check_shape (Var 1) [3; 3; 3] [9; 3; 1]) (same27 (Var 0) (Var 1));
    then_check [NewList [27] c1 0; NewList [27] c1 0; NewRefList 0 0 [3; 3; 3] c3; NewRefList 1 0 [3; 3; 3] c3; FillRef 0 vals45; Assign (Named 1) (Named 0)]
      (check_shape (Named 1) [3; 3; 3] [9; 3; 1]) (same27 (Named 0) (Named 1));
    (* subarray value_type is multi_array *)
    ([NewList [3; 3; 3] c3 0; Fill 0 vals45; NewFrom (Sub (Sub (Var 0) 1) 0) c1 0; Compare CEq (Sub (Sub (Var 0) 1) 0) (Var 1)], [yes]) ] = true.
Proof. vm_compute. reflexivity. Qed.

(** lines 147-155, 169-177: the copies have the same data() pointer *)
Definition data_of (chk : bool) (p : list command) (es : list expr) : option (list ptr) :=
  match finish chk p with
  | Some (_, en, _) =>
      match map (fun e => match eval chk en e with Ok (OArr c) => Some (cr_data c) | _ => None end) es with
      | [Some p; Some q] => Some [p; q] | _ => None end
  | None => None
  end.
Definition same_data (p : list command) (e f : expr) : bool :=
  match data_of true p [e; f] with Some [p; q] => ptr_eqb p q | _ => false end.
Example repo_constructors_data :
  same_data [NewList [27] c1 0; NewRefList 0 0 [3; 3; 3] c3; NewAlias 0] (Named 0) (Named 1) = true /\
  same_data [NewList [3; 3; 3] c3 0; NewRefOf 0] (Named 0) (Var 0) = true /\
  same_data [NewList [3; 3; 3] c3 0; NewCopy 0] (Var 0) (Var 1) = false.
Proof. repeat split; vm_compute; reflexivity. Qed.

(** test/allocators.cpp: the same with a stateful allocator, number 1; every block
    comes from it and goes back to it *)
Definition all_from (aid : nat) (p : list command) : bool :=
  match finish true p with
  | Some (_, _, h) => forallb (fun b => match b with Some b => Nat.eqb (b_alloc b) aid | None => false end) h
  | None => false
  end.
Definition all_returned (p : list command) : bool :=
  match finish true p with
  | Some (_, _, h) => forallb (fun b => match b with Some _ => false | None => true end) h
  | None => false
  end.
Example repo_allocators :
  forallb passes
  [ then_check [NewList [3; 3; 3] c3 1] (check_shape (Var 0) [3; 3; 3] [9; 3; 1]) done;
    then_check [NewList [3; 3; 3] f3 1] (check_shape (Var 0) [3; 3; 3] [1; 3; 9]) done;
    then_check [NewRanges threes c3 1] (check_shape (Var 0) [3; 3; 3] [9; 3; 1]) done;
    then_check [NewList [3; 3; 3] c3 1; Fill 0 vals45; NewCopy 0] (check_shape (Var 1) [3; 3; 3] [9; 3; 1]) (same27 (Var 0) (Var 1));
    then_check [NewList [3; 3; 3] c3 1; NewList [3; 3; 3] c3 1; Fill 0 vals45; AssignVar 1 0] (check_shape (Var 1) [3; 3; 3] [9; 3; 1]) (same27 (Var 0) (Var 1));
    ([NewList [3; 3; 3] c3 1; Fill 0 vals45; NewFrom (Sub (Sub (Var 0) 1) 0) c1 1; Compare CEq (Sub (Sub (Var 0) 1) 0) (Var 1)], [yes]) ] = true /\
  forallb (all_from 1)
  [ [NewDefault 3 1]; [NewList [3; 3; 3] c3 1]; [NewList [3; 3; 3] c3 1; NewCopy 0];
    [NewList [3; 3; 3] c3 1; NewList [3; 3; 3] c3 1; AssignVar 1 0] ] = true /\
  forallb all_returned
  [ [NewDefault 3 1; Destroy 0]; [NewList [3; 3; 3] c3 1; Destroy 0]; [NewList [3; 3; 3] c3 1; NewCopy 0; Destroy 1; Destroy 0];
    [NewList [3; 3; 3] c3 1; NewList [3; 3; 3] c3 1; AssignVar 1 0; Destroy 1; Destroy 0] ] = true.
Proof. repeat split; vm_compute; reflexivity. Qed.

(** * test/compare.cpp *)

Definition slab := [At 2; everything; everything].
Definition cmpA : list Z := repeat 0 9 ++ repeat 1 9 ++ repeat 2 9.
Definition cmpB : list Z := repeat 0 9 ++ repeat 1 9 ++ repeat 2 8 ++ [1].
Definition A := Var 0.
Definition B := Var 1.
Example repo_compare : forallb passes
  [ ([NewList [3; 3; 3] c3 0; Fill 0 vals45; NewCopy 0; Compare CEq A B; Compare CEq B A; Compare CEq (Sub A 0) (Sub B 0)], [yes; yes; yes]);
    ([NewList [3; 3; 3] c3 0; NewList [3; 3; 3] c3 0; Fill 0 vals45; AssignVar 1 0; Compare CEq A B; Compare CEq B A;
      Compare CEq (Sub B 0) (Sub A 0); NewView A slab; NewView B slab; Compare CEq (Named 0) (Named 1)], [yes; yes; yes; yes]);
    ([NewList [3; 3; 3] c3 0; NewList [3; 3; 3] c3 0; Fill 0 vals45; Fill 1 (repeat 25 27); Compare CNe A B; Compare CNe B A;
      Compare CNe (Sub A 0) (Sub B 0); NewView A slab; NewView B slab; Compare CNe (Named 0) (Named 1)], [yes; yes; yes; yes]);
    ([NewList [3; 3; 3] c3 0; NewList [3; 3; 3] c3 0; Fill 0 cmpA; Fill 1 cmpB;
      Compare CLt B A; Compare CGt A B; Compare CLe B A; Compare CGe A B; Compare CEq (Sub B 0) (Sub A 0); Compare CLt (Sub B 2) (Sub A 2);
      NewCopy 0; Compare CLe (Var 2) A; Compare CGe (Var 2) A; Compare CLt (Var 2) A; Compare CGt (Var 2) A;
      NewView A slab; NewView B slab; Compare CLt (Named 1) (Named 0); Compare CLe (Named 1) (Named 0)],
     [yes; yes; yes; yes; yes; yes; yes; yes; no; no; yes; yes]) ] = true.
Proof. vm_compute. reflexivity. Qed.

(** * test/index_bases.cpp *)

Definition whole3 := [everything; everything; everything].
Definition based := [(1, 4); (2, 5); (3, 6)].
Definition i333 := tuples [0; 0; 0] [3; 3; 3].
Example repo_index_bases : forallb passes
  [ (* construct with nonzero bases; D is a const ref of the same buffer, E a view *)
    ([NewRanges based c3 0; NewRanges threes c3 0; NewList [27] c1 0; NewRefRanges 2 0 based c3; NewRefRanges 2 0 based c3; NewView A whole3;
      Fill 0 (upto 27); Fill 1 (upto 27); FillRef 0 (upto 27)] ++
     getb A (tuples [1; 2; 3] [3; 3; 3]) ++ getb B i333 ++ getb (Named 0) (tuples [1; 2; 3] [3; 3; 3]) ++
     getb (Named 1) (tuples [1; 2; 3] [3; 3; 3]) ++ getb (Named 2) i333,
     vals (upto 27 ++ upto 27 ++ upto 27 ++ upto 27 ++ upto 27));
    (* reindex *)
    ([NewRanges threes c3 0; NewRanges threes c3 0; NewList [27] c1 0; NewRefRanges 2 0 threes c3; NewRefRanges 2 0 threes c3; NewView B whole3;
      Fill 0 (upto 27); Fill 1 (upto 27); FillRef 0 (upto 27);
      Reindex 0 [1; 2; 3]; ReindexNamed 0 [1; 2; 3]; ReindexNamed 1 [1; 2; 3]; ReindexNamed 2 [1; 2; 3]] ++
     getb B i333 ++ flat_map (fun e => getb e (tuples [1; 2; 3] [3; 3; 3])) [A; Named 0; Named 1; Named 2],
     vals (upto 27 ++ upto 27 ++ upto 27 ++ upto 27 ++ upto 27));
    (* set index base *)
    ([NewRanges threes c3 0; NewRanges threes c3 0; NewList [27] c1 0; NewRefRanges 2 0 threes c3; NewRefRanges 2 0 threes c3; NewView B whole3;
      Fill 0 (upto 27); Fill 1 (upto 27); FillRef 0 (upto 27);
      ReindexAll 0 1; ReindexNamedAll 0 1; ReindexNamedAll 1 1; ReindexNamedAll 2 1] ++
     getb B i333 ++ flat_map (fun e => getb e (tuples [1; 1; 1] [3; 3; 3])) [A; Named 0; Named 1; Named 2],
     vals (upto 27 ++ upto 27 ++ upto 27 ++ upto 27 ++ upto 27)) ] = true.
Proof. vm_compute. reflexivity. Qed.

(** * test/storage_order.cpp and test/storage_order_convert.cpp *)

Definition data_col : list Z :=
  [0;12;4;16;8;20; 1;13;5;17;9;21; 2;14;6;18;10;22; 3;15;7;19;11;23].
Definition data_arb : list Z :=
  [0;1;2;3; 12;13;14;15; 4;5;6;7; 16;17;18;19; 8;9;10;11; 20;21;22;23].
Definition data_desc : list Z :=
  [12;13;14;15; 0;1;2;3; 16;17;18;19; 4;5;6;7; 20;21;22;23; 8;9;10;11].
Definition e234 := [(0, 2); (0, 3); (0, 4)].
Definition i234 := tuples [0; 0; 0] [2; 3; 4].
Example repo_storage_order : forallb passes
  [ ([NewRanges e234 f3 0; Fill 0 data_col] ++ getb A i234, vals (upto 24));
    ([NewRanges e234 (SO [0; 1; 2]%nat [true; true; true]) 0; Fill 0 data_col] ++ getb A i234, vals (upto 24));
    ([NewRanges e234 (SO [2; 0; 1]%nat [true; true; true]) 0; Fill 0 data_arb] ++ getb A i234, vals (upto 24));
    ([NewRanges e234 (SO [2; 0; 1]%nat [false; true; true]) 0; Fill 0 data_desc] ++ getb A i234, vals (upto 24)) ] = true.
Proof. vm_compute. reflexivity. Qed.

Example repo_storage_order_convert :
  c_conversion 5 = Ok (SO [4; 3; 2; 1; 0]%nat (repeat true 5)) /\
  fortran_conversion 5 = Ok (SO [0; 1; 2; 3; 4]%nat (repeat true 5)) /\
  so_eqb (SO [4; 3; 2; 1; 0]%nat (repeat true 5)) (so_from_c 5) = true /\
  so_eqb (SO [0; 1; 2; 3; 4]%nat (repeat true 5)) (so_from_fortran 5) = true.
Proof. repeat split; vm_compute; reflexivity. Qed.

(** * test/reshape.cpp *)

Example repo_reshape : forallb passes
  [ ([NewList [2; 3; 4] c3 0; Fill 0 (upto 24); NewList [24] c1 0; Fill 1 (upto 24); NewRefList 1 0 [2; 3; 4] c3; NewRefList 1 0 [2; 3; 4] c3;
      Reshape 0 [4; 3; 2]; ReshapeRef 0 [4; 3; 2]; ReshapeRef 1 [4; 3; 2]] ++
     flat_map (fun e => getb e (tuples [0; 0; 0] [4; 3; 2])) [A; Named 0; Named 1], vals (upto 24 ++ upto 24 ++ upto 24));
    ([NewList [2; 3; 4] c3 0; Fill 0 (upto 24); NewList [24] c1 0; Fill 1 (upto 24); NewRefList 1 0 [2; 3; 4] c3; NewRefList 1 0 [2; 3; 4] c3;
      Reindex 0 [0; 1; -1]; ReindexNamed 0 [0; 1; -1]; ReindexNamed 1 [0; 1; -1];
      Reshape 0 [4; 3; 2]; ReshapeRef 0 [4; 3; 2]; ReshapeRef 1 [4; 3; 2]] ++
     flat_map (fun e => getb e (tuples [0; 1; -1] [4; 3; 2])) [A; Named 0; Named 1], vals (upto 24 ++ upto 24 ++ upto 24)) ] = true.
Proof. vm_compute. reflexivity. Qed.

(** * test/resize.cpp: what data() shows is read through a one-dimensional ref *)

Definition A_resize : list Z := [0;1;4;5;8;9; 12;13;16;17;20;21] ++ repeat 0 12.
Definition storage (x : nat) (h : nat) (n : Z) : list command := NewRefList x 0 [n] c1 :: getb (Named h) (tuples [0] [n]).
Definition tiling := SO [2; 0; 1]%nat [true; true; true].
Example repo_resize : forallb passes
  [ ([NewRanges e234 c3 0; Fill 0 (upto 24); Resize 0 [(0, 4); (0, 3); (0, 2)]] ++ storage 0 0 24, vals A_resize);
    ([NewRanges e234 c3 0; Fill 0 (upto 24); ResizeList 0 [4; 3; 2]] ++ storage 0 0 24, vals A_resize);
    ([NewDefault 3 0; Resize 0 e234] ++ storage 0 0 24, vals (repeat 0 24));
    ([NewRanges [(0, 3); (0, 4); (0, 2)] tiling 0; Fill 0 (upto 24); Resize 0 [(0, 3); (0, 4); (0, 2)]] ++ storage 0 0 24, vals (upto 24));
    ([NewDefault 1 0; Resize 0 [(-3, 3)]; Ask QBases A; Ask QShape A], [OInts [-3]; OInts [6]]) ] = true.
Proof. vm_compute. reflexivity. Qed.

(** * test/range1.cpp and test/idxgen1.cpp *)

Definition seen (r : index_range) : outcome (Z * Z * Z * Z * bool) :=
  s <- ir_size r 0 ;; Ok (ir_start r, ir_finish r, ir_stride r, s, ir_degenerate r).
Example repo_range1 :
  seen (ir_make (-3) 5 1) = Ok (-3, 5, 1, 8, false) /\
  ir_get_start (ir_make (-3) 5 1) 0 = -3 /\ ir_get_finish (ir_make (-3) 5 1) 100 = 5 /\
  seen (ir_make (-3) 5 2) = Ok (-3, 5, 2, 4, false) /\
  (r <- ir_pos 5 ;; seen r) = Ok (5, 6, 1, 1, true) /\
  ir_get_start ir_default 0 = 0 /\ ir_get_finish ir_default 100 = 100 /\ ir_stride ir_default = 1 /\ ir_size ir_default 0 = Ok 0 /\
  seen (ir_set_finish (ir_set_start (ir_set_stride ir_default 2) (-3)) 7) = Ok (-3, 7, 2, 5, false) /\
  seen (ir_lt_right (ir_le_left (-3) (ir_set_stride ir_default 2)) 7) = Ok (-3, 7, 2, 5, false) /\
  (r <- ir_lt_left (-3) ir_default ;; r' <- ir_le_right r 7 ;; seen r') = Ok (-2, 8, 1, 10, false) /\
  (r <- ir_plus (ir_make 0 5 1) 2 ;; seen r) = Ok (2, 7, 1, 5, false) /\
  (r <- ir_minus (ir_make 0 5 1) 2 ;; seen r) = Ok (-2, 3, 1, 5, false).
Proof. repeat split; vm_compute; reflexivity. Qed.

(** check<NumRanges,NumDims>(..) *)
Definition params (subs : list subscript) : outcome (nat * nat) := g <- indices_of indices subs ;; Ok (ig_num g, ig_dims g).
Example repo_idxgen1 :
  let r := everything in let o := At 0 in
  map params [[r]; [r; r]; [r; r; r]; [o]; [o; o]; [r; o]; [o; r]; [o; o; o]; [r; o; o]; [o; r; o]; [o; o; r]; [r; r; o]; [r; o; r]; [o; r; r]] =
  map Ok [(1, 1); (2, 2); (3, 3); (1, 0); (2, 0); (2, 1); (2, 1); (3, 0); (3, 1); (3, 1); (3, 1); (3, 2); (3, 2); (3, 2)]%nat /\
  (g <- indices_of indices [rng3 0 1 2; rng3 1 2 3; rng3 2 3 4] ;; Ok (ig_ranges g)) =
    Ok [ir_make 0 1 2; ir_make 1 2 3; ir_make 2 3 4] /\
  (g <- indices_of indices [rng3 0 1 2; At 2; rng3 2 3 4] ;; Ok (ig_ranges g)) =
    Ok [ir_make 0 1 2; IRange 2 3 1 true; ir_make 2 3 4].
Proof. repeat split; vm_compute; reflexivity. Qed.

(** * test/stl_interaction.cpp, assert.cpp, reverse_view.cpp, vc_death.cpp *)

(** std::vector<array3> myvec(5, myarray) copies five times (variables 1 to 5);
    push_back copies again (6) *)
Example repo_stl_interaction : passes
  ([NewRanges e234 c3 0; Fill 0 (upto 24); NewCopy 0; NewCopy 0; NewCopy 0; NewCopy 0; NewCopy 0; Compare CEq A (Var 2);
    NewView A [At 1; rng 0 2; rng 1 3]; NewRanges [(0, 2); (0, 2)] c2 0; Fill 6 [99; 98; 97; 96]; Assign (Named 0) (Var 6);
    NewCopy 0; Compare CNe A (Var 2); Compare CEq A (Var 7)], [yes; yes; yes]) = true.
Proof. vm_compute. reflexivity. Qed.

(** A = B with different shapes: the assertion fails; with the assertion handler of
    the test the exception is caught and the arrays can be used afterwards *)
Example repo_assert :
  (exists w, run 0 Z.eqb Z.ltb true (Env [] []) [NewRanges [(0, 2); (0, 2)] c2 0; NewRanges [(0, 3); (0, 3)] c2 0; AssignVar 0 1] (World [] None) = Aborted w) /\
  (exists en w, run_handled 0 Z.eqb Z.ltb true (Env [] [])
     [(NewRanges [(0, 2); (0, 2)] c2 0, None); (NewRanges [(0, 3); (0, 3)] c2 0, None); (AssignVar 0 1, None); (Get A [1; 1], None)] [] =
     Done (en, [Some ONone; Some ONone; None; Some (OVal 0)]) w).
Proof. split; [eexists|do 2 eexists]; vm_compute; reflexivity. Qed.

Example repo_reverse_view : passes
  ([NewRanges [(0, 4)] c1 0; Fill 0 [1; 2; 3; 4]; NewView A [rng3 3 (-1) (-1)]; Ask QSize (Named 0)] ++ getb (Named 0) (tuples [0] [4]),
   OInt 4 :: vals [4; 3; 2; 1]) = true.
Proof. vm_compute. reflexivity. Qed.

(** vc_death.cpp (a compiler test, not in the Jamfile) makes a view with indices
    below the bases of its second and third dimension: with assertions it ends in
    a failed assertion *)
Example repo_vc_death :
  exists w, run 0 Z.eqb Z.ltb true (Env [] []) [NewRanges based c3 0; NewView A [rng 1 2; rng 1 2; rng 1 2]] (World [] None) = Aborted w.
Proof. eexists. vm_compute. reflexivity. Qed.

(** * example/*.cpp *)

Example repo_examples : forallb passes
  [ (* basic1, basic2, op_paren (314 for 3.14) *)
    ([NewRanges [(0, 3); (0, 4); (0, 2)] c3 0; SetB A [0; 0; 0] 314; GetB A [0; 0; 0]], [OVal 314]);
    ([NewList [3; 4; 2] c3 0; SetB A [0; 0; 0] 314; GetB A [0; 0; 0]], [OVal 314]);
    ([NewList [3; 4; 2] c3 0; Set_ A [0; 0; 0] 314; Get A [0; 0; 0]], [OVal 314]);
    (* foreach_test, foreach_test2 *)
    ([NewRanges [(0, 3); (0, 3)] c2 0; Fill 0 [1; 2; 3; 4; 5; 6; 7; 8; 9]; ForEach A (fun v => v * 5)] ++ storage 0 0 9,
     vals [5; 10; 15; 20; 25; 30; 35; 40; 45]);
    ([NewRanges [(0, 9)] c1 0; Fill 0 [1; 2; 3; 4; 5; 6; 7; 8; 9]; ForEach A (fun v => v * 5)] ++ getb A (tuples [0] [9]),
     vals [5; 10; 15; 20; 25; 30; 35; 40; 45]);
    (* subview, subview2 *)
    ([NewRanges e234 c3 0; Fill 0 (upto 24); NewView A [rng 0 2; rng 1 3; rng3 0 4 2]] ++ getb (Named 0) (tuples [0; 0; 0] [2; 2; 2]),
     vals (map (fun i => match i with [i; j; k] => at_ [0; 0; 0] [i; j + 1; k * 2] | _ => -1 end) (tuples [0; 0; 0] [2; 2; 2]))) ] = true.
Proof. vm_compute. reflexivity. Qed.

(** print_array: [[0,1,2],[3,4,5]] *)
Example repo_print_array :
  match finish true [NewRanges [(0, 2); (0, 3)] c2 0; Fill 0 (upto 6)] with
  | Some (_, en, h) =>
      match eval_nd true en A with
      | Ok a => match print true 2 a (World h None) with Done l _ => Some l | _ => None end
      | _ => None
      end
  | None => None
  end =
  Some [TkOpen; TkOpen; TkElem 0; TkComma; TkElem 1; TkComma; TkElem 2; TkClose; TkComma;
        TkOpen; TkElem 3; TkComma; TkElem 4; TkComma; TkElem 5; TkClose; TkClose].
Proof. vm_compute. reflexivity. Qed.

(** resize_from_other: B gets the shape 5, 4 of A *)
Example repo_resize_from_other :
  match finish true [NewRanges [(0, 5); (0, 4)] c2 0; NewDefault 2 0] with
  | Some (_, en, h) =>
      match eval_nd true en A, var en 1 with
      | Ok a, Ok b => match resize_from 0 true b a (World h None) with Done b' _ => Some (cr_ext (ma_ref b')) | _ => None end
      | _, _ => None
      end
  | None => None
  end = Some [5; 4].
Proof. vm_compute. reflexivity. Qed.
