(** Threads.v -- several threads using the same arrays.

    The library has no synchronisation of its own.  A thread is a sequence of
    calls; here the calls are written so that every access to an element is a
    separate step, and a scheduler may switch threads between any two steps.  The
    functions are those of Ops.v, line for line, with [load] and [store] replaced
    by steps; [run_prog] runs a program without interruption, and
    ThmThreads.c44_steps_refine_calls proves that this gives back the functions of Ops.v.  The
    geometry of the arrays (extents, strides, index bases) is not changed by any
    of these calls, so reading it is not a step. *)

From Verif Require Import Base StorageOrder Ranges Layout Access Objects Memory Ops.

Section Threads.
Context {T : Type}.

Inductive prog (A : Type) : Type :=
| PRet (a : A)                              (* the thread has finished *)
| PAbort                                    (* BOOST_ASSERT failed *)
| PUndef                                    (* undefined behaviour *)
| PFuel                                     (* a loop ran out of steps *)
| PLoad (p : ptr) (k : T -> prog A)         (* read an element *)
| PStore (p : ptr) (v : T) (k : prog A).    (* assign to an element *)
Arguments PRet {A} a.
Arguments PAbort {A}.
Arguments PUndef {A}.
Arguments PFuel {A}.
Arguments PLoad {A} p k.
Arguments PStore {A} p v k.

Fixpoint pbind {A B} (m : prog A) (f : A -> prog B) : prog B :=
  match m with
  | PRet a => f a
  | PAbort => PAbort
  | PUndef => PUndef
  | PFuel => PFuel
  | PLoad p k => PLoad p (fun v => pbind (k v) f)
  | PStore p v k => PStore p v (pbind k f)
  end.
Definition plift {A} (o : outcome A) : prog A :=
  match o with Ok a => PRet a | Abort => PAbort | UB => PUndef end.

(** run to the end without interruption *)
Fixpoint run_prog {A} (m : prog A) : M T A :=
  match m with
  | PRet a => ret a
  | PAbort => fun w => Aborted w
  | PUndef => fun _ => Undef
  | PFuel => fun _ => OutOfFuel
  | PLoad p k => v <~ load p ;; run_prog (k v)
  | PStore p v k => _ <~ store p v ;; run_prog k
  end.

(** [*dst = *src] *)
Definition p_elem_assign (dst src : ptr) : prog unit := PLoad src (fun v => PStore dst v (PRet tt)).

(** Ops.copy_loop *)
Fixpoint p_copy_loop (body : iter -> iter -> prog unit) (fuel : nat) (first last result : iter) : prog unit :=
  if it_equal first last then PRet tt
  else match fuel with
       | O => PFuel
       | S f =>
           pbind (body first result) (fun _ =>
           pbind (plift (it_inc first)) (fun first' =>
           pbind (plift (it_inc result)) (fun result' =>
           p_copy_loop body f first' last result')))
       end.
(** Ops.copy_rows *)
Definition p_copy_rows (rec : nd -> nd -> prog unit) (chk : bool) (k : nat) (dst src : nd) : prog unit :=
  pbind (plift (nd_begin src)) (fun first =>
  pbind (plift (nd_end src)) (fun last =>
  pbind (plift (nd_begin dst)) (fun result =>
  p_copy_loop
    (fun f r =>
       match k with
       | O => pbind (plift (it_deref_one chk f)) (fun p =>
              pbind (plift (it_deref_one chk r)) (fun q => p_elem_assign q p))
       | S _ => pbind (plift (it_deref_n chk f)) (fun s =>
                pbind (plift (it_deref_n chk r)) (fun d => rec d s))
       end)
    (loop_fuel first last) first last result))).
(** dst = src: Ops.assign_nd (multi_array_ref.hpp:475-502, subarray.hpp:228-254,
    view.hpp:294-321) *)
Fixpoint p_assign_nd (chk : bool) (n : nat) (dst src : nd) {struct n} : prog unit :=
  match n with
  | O => PUndef
  | S k => pbind (plift (assertM chk (Ok (list_eqb (nd_ext src) (nd_ext dst))))) (fun _ =>
           p_copy_rows (p_assign_nd chk k) chk k dst src)
  end.
(** copy_array(src, dst): Ops.copy_dispatch, Ops.copy_array (copy_array.hpp:31-61) *)
Fixpoint p_copy_dispatch (chk : bool) (n : nat) (dst src : nd) {struct n} : prog unit :=
  match n with
  | O => PUndef
  | S k => p_copy_rows (p_copy_dispatch chk k) chk k dst src
  end.
Definition p_copy_array (chk : bool) (n : nat) (dst src : nd) : prog unit :=
  pbind (plift (assertM chk (Ok (list_eqb (nd_ext src) (nd_ext dst))))) (fun _ => p_copy_dispatch chk n dst src).

(** for_each: Ops.each_loop, Ops.for_each (example/for_each.hpp:22-46) *)
Fixpoint p_each_loop (body : iter -> prog unit) (fuel : nat) (first last : iter) : prog unit :=
  if it_equal first last then PRet tt
  else match fuel with
       | O => PFuel
       | S f =>
           pbind (body first) (fun _ =>
           pbind (plift (it_inc first)) (fun first' => p_each_loop body f first' last))
       end.
Fixpoint p_for_each (chk : bool) (xform : T -> T) (n : nat) (a : nd) {struct n} : prog unit :=
  match n with
  | O => PUndef
  | S k =>
      pbind (plift (nd_begin a)) (fun first =>
      pbind (plift (nd_end a)) (fun last =>
      p_each_loop
        (fun i =>
           match k with
           | O => pbind (plift (it_deref_one chk i)) (fun p => PLoad p (fun v => PStore p (xform v) (PRet tt)))
           | S _ => pbind (plift (it_deref_n chk i)) (fun s => p_for_each chk xform k s)
           end)
        (loop_fuel first last) first last))
  end.

(** assign(first, last): Ops.assign_loop (multi_array_ref.hpp:127-138) *)
Fixpoint p_assign_loop (out : ptr) (input : list T) (copy_count num : Z) : prog unit :=
  match input with
  | [] => PRet tt
  | v :: rest =>
      if copy_count <? num then PStore out v (p_assign_loop (padd out 1) rest (copy_count + 1) num)
      else PRet tt
  end.
Definition p_assign (c : cref) (input : list T) : prog unit := p_assign_loop (cr_base c) input 0 (cr_num c).

(** element reads and writes: Ops.get_element ... Ops.set_bracket *)
Definition p_get_element (chk : bool) (a : nd) (idx : list Z) : prog T :=
  pbind (plift (access_element chk a idx)) (fun p => PLoad p (fun v => PRet v)).
Definition p_set_element (chk : bool) (a : nd) (idx : list Z) (v : T) : prog unit :=
  pbind (plift (access_element chk a idx)) (fun p => PStore p v (PRet tt)).
Definition p_get_bracket (chk : bool) (a : nd) (idx : list Z) : prog T :=
  pbind (plift (bracket chk a idx)) (fun p => PLoad p (fun v => PRet v)).
Definition p_set_bracket (chk : bool) (a : nd) (idx : list Z) (v : T) : prog unit :=
  pbind (plift (bracket chk a idx)) (fun p => PStore p v (PRet tt)).

Section Compare.
Variable eqT : T -> T -> bool.
Variable ltT : T -> T -> bool.

(** std::equal: Ops.equal_loop; operator==: Ops.nd_eq *)
Fixpoint p_equal_loop (body : iter -> iter -> prog bool) (fuel : nat) (f1 l1 f2 : iter) : prog bool :=
  if it_equal f1 l1 then PRet true
  else match fuel with
       | O => PUndef
       | S f =>
           pbind (body f1 f2) (fun b =>
           if b then
             pbind (plift (it_inc f1)) (fun f1' =>
             pbind (plift (it_inc f2)) (fun f2' => p_equal_loop body f f1' l1 f2'))
           else PRet false)
       end.
Fixpoint p_nd_eq (chk : bool) (n : nat) (a b : nd) {struct n} : prog bool :=
  match n with
  | O => PUndef
  | S k =>
      if list_eqb (nd_ext a) (nd_ext b) then
        pbind (plift (nd_begin a)) (fun f1 =>
        pbind (plift (nd_end a)) (fun l1 =>
        pbind (plift (nd_begin b)) (fun f2 =>
        p_equal_loop
          (fun x y =>
             match k with
             | O => pbind (plift (it_deref_one chk x)) (fun p =>
                    pbind (plift (it_deref_one chk y)) (fun q =>
                    PLoad p (fun u => PLoad q (fun v => PRet (eqT u v)))))
             | S _ => pbind (plift (it_deref_n chk x)) (fun s =>
                      pbind (plift (it_deref_n chk y)) (fun t => p_nd_eq chk k s t))
             end)
          (loop_fuel f1 l1) f1 l1 f2)))
      else PRet false
  end.

(** std::lexicographical_compare: Ops.lex_loop; operator<: Ops.nd_lt *)
Fixpoint p_lex_loop (less : iter -> iter -> prog bool) (fuel : nat) (f1 l1 f2 l2 : iter) : prog bool :=
  if it_equal f1 l1 then PRet (negb (it_equal f2 l2))
  else if it_equal f2 l2 then PRet false
  else match fuel with
       | O => PUndef
       | S f =>
           pbind (less f1 f2) (fun b =>
           if b then PRet true else
           pbind (less f2 f1) (fun c =>
           if c then PRet false else
           pbind (plift (it_inc f1)) (fun f1' =>
           pbind (plift (it_inc f2)) (fun f2' => p_lex_loop less f f1' l1 f2' l2))))
       end.
Fixpoint p_nd_lt (chk : bool) (n : nat) (a b : nd) {struct n} : prog bool :=
  match n with
  | O => PUndef
  | S k =>
      pbind (plift (nd_begin a)) (fun f1 =>
      pbind (plift (nd_end a)) (fun l1 =>
      pbind (plift (nd_begin b)) (fun f2 =>
      pbind (plift (nd_end b)) (fun l2 =>
      p_lex_loop
        (fun x y =>
           match k with
           | O => pbind (plift (it_deref_one chk x)) (fun p =>
                  pbind (plift (it_deref_one chk y)) (fun q =>
                  PLoad p (fun u => PLoad q (fun v => PRet (ltT u v)))))
           | S _ => pbind (plift (it_deref_n chk x)) (fun s =>
                    pbind (plift (it_deref_n chk y)) (fun t => p_nd_lt chk k s t))
           end)
        (loop_fuel f1 l1) f1 l1 f2 l2))))
  end.

(** * Calls and threads *)

(** the calls a thread can make on arrays it shares with others (the array
    arguments are arrays, refs, subarrays or views) *)
Inductive call : Type :=
| KGet (a : nd) (i : list Z)              (* x = a(i) *)
| KGetBracket (a : nd) (i : list Z)       (* x = a[i1]...[iN] *)
| KSet (a : nd) (i : list Z) (v : T)      (* a(i) = v *)
| KSetBracket (a : nd) (i : list Z) (v : T)
| KAssign (dst src : nd)                  (* dst = src *)
| KCopyArray (src dst : nd)               (* copy_array(src, dst) *)
| KForEach (f : T -> T) (a : nd)          (* for_each(a, f) *)
| KFill (c : cref) (l : list T)           (* c.assign(l.begin(), l.end()) *)
| KEqual (a b : nd)                       (* a == b *)
| KLess (a b : nd).                       (* a < b *)

Inductive result : Type := RVal (v : T) | RBool (b : bool) | RNone.

Definition p_call (chk : bool) (k : call) : prog result :=
  match k with
  | KGet a i => pbind (p_get_element chk a i) (fun v => PRet (RVal v))
  | KGetBracket a i => pbind (p_get_bracket chk a i) (fun v => PRet (RVal v))
  | KSet a i v => pbind (p_set_element chk a i v) (fun _ => PRet RNone)
  | KSetBracket a i v => pbind (p_set_bracket chk a i v) (fun _ => PRet RNone)
  | KAssign dst src => pbind (p_assign_nd chk (length (nd_ext dst)) dst src) (fun _ => PRet RNone)
  | KCopyArray src dst => pbind (p_copy_array chk (length (nd_ext dst)) dst src) (fun _ => PRet RNone)
  | KForEach f a => pbind (p_for_each chk f (length (nd_ext a)) a) (fun _ => PRet RNone)
  | KFill c l => pbind (p_assign c l) (fun _ => PRet RNone)
  | KEqual a b => pbind (p_nd_eq chk (length (nd_ext a)) a b) (fun r => PRet (RBool r))
  | KLess a b => pbind (p_nd_lt chk (length (nd_ext a)) a b) (fun r => PRet (RBool r))
  end.

(** a thread makes its calls in order and collects their results *)
Fixpoint p_thread (chk : bool) (t : list call) : prog (list result) :=
  match t with
  | [] => PRet []
  | k :: rest => pbind (p_call chk k) (fun r => pbind (p_thread chk rest) (fun rs => PRet (r :: rs)))
  end.

(** the same, uninterrupted, with the functions of Ops.v *)
Definition run_call (chk : bool) (k : call) : M T result :=
  match k with
  | KGet a i => v <~ get_element chk a i ;; ret (RVal v)
  | KGetBracket a i => v <~ get_bracket chk a i ;; ret (RVal v)
  | KSet a i v => _ <~ set_element chk a i v ;; ret RNone
  | KSetBracket a i v => _ <~ set_bracket chk a i v ;; ret RNone
  | KAssign dst src => _ <~ assign_nd chk (length (nd_ext dst)) dst src ;; ret RNone
  | KCopyArray src dst => _ <~ copy_array chk (length (nd_ext dst)) dst src ;; ret RNone
  | KForEach f a => _ <~ for_each chk f (length (nd_ext a)) a ;; ret RNone
  | KFill c l => _ <~ cr_assign c l ;; ret RNone
  | KEqual a b => fun w => (r <~ lift (nd_eq eqT chk (w_heap w) (length (nd_ext a)) a b) ;; ret (RBool r)) w
  | KLess a b => fun w => (r <~ lift (nd_lt ltT chk (w_heap w) (length (nd_ext a)) a b) ;; ret (RBool r)) w
  end.
Fixpoint run_thread (chk : bool) (t : list call) : M T (list result) :=
  match t with
  | [] => ret []
  | k :: rest => r <~ run_call chk k ;; rs <~ run_thread chk rest ;; ret (r :: rs)
  end.
End Compare.

(** * Scheduling *)

(** one step of thread i of the pool *)
Inductive t_step {A : Type} : heap T * list (prog A) -> heap T * list (prog A) -> Prop :=
| st_load : forall h pool i p k v, nth_error pool i = Some (PLoad p k) -> hread h p = Ok v ->
    t_step (h, pool) (h, set_nth i (k v) pool)
| st_store : forall h pool i p v k h', nth_error pool i = Some (PStore p v k) -> hwrite h p v = Ok h' ->
    t_step (h, pool) (h', set_nth i k pool).

(** any number of steps, in any order of threads *)
Inductive t_steps {A : Type} : heap T * list (prog A) -> heap T * list (prog A) -> Prop :=
| sts_here : forall s, t_steps s s
| sts_step : forall s s' s'', t_step s s' -> t_steps s' s'' -> t_steps s s''.

End Threads.

Arguments PRet {T A} a.
Arguments PAbort {T A}.
Arguments PUndef {T A}.
Arguments PFuel {T A}.
Arguments PLoad {T A} p k.
Arguments PStore {T A} p v k.
Arguments prog : clear implicits.
Arguments call : clear implicits.
Arguments result : clear implicits.
