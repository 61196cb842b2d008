(** Lock.v -- threads that share arrays under a mutex or a reader/writer lock.

    There is no code in /repo for this: the lock is std::shared_mutex (or std::mutex, if no section is
    Reading).  What the threads do to arrays,
    inside and outside of the sections where they hold the lock, is Concur.v's j_thread, one step per
    access to memory.  Simplified: there is one lock, it guards all shared arrays, and it is
    held during whole sections of commands; the shared arrays are numbered 0 .. g-1 for everybody, and a
    thread's own arrays from g on.  Arrays made in a section belong to the thread; names
    (views, refs) of shared arrays are usable until the section ends.  A section that holds the lock
    shared does not write the shared array objects back. *)

From Coq Require Import ZArith List Bool Arith.
From Verif Require Import Base StorageOrder Ranges Layout Access Objects Memory Ops MultiArray History Concur.
Import ListNotations.

(** who holds the lock; how a thread does *)
Inductive lock := LFree | LBy (i : nat) | LShared (readers : list nat).
Inductive hold_mode := NotHeld | HeldAlone | HeldShared.
(** taking it shared, which is possible unless somebody holds it alone; giving it back *)
Definition share (i : nat) (lk : lock) : option lock :=
  match lk with LFree => Some (LShared [i]) | LShared r => Some (LShared (i :: r)) | LBy _ => None end.
Definition unshare (i : nat) (lk : lock) : lock :=
  match lk with LShared r => match remove Nat.eq_dec i r with [] => LFree | r' => LShared r' end | _ => lk end.

Section Lock.
Context {T : Type}.
Variable dflt : T.
Variable eqT ltT : T -> T -> bool.

(** a part of a thread's program, every exception being caught inside: executed without the lock,
    while hold_mode it alone, or while hold_mode it together with other readers *)
Inductive lsection := Alone (p : list (@command T * option nat)) | Locked (p : list (@command T * option nat))
| Reading (p : list (@command T * option nat)).
(** between two sections, with these variables; or executing one *)
Inductive activity :=
| Resting (en : env)
| Working (holds : hold_mode) (m : job T (env * list (option (@output T)))) (f : option nat).
Record party := Party { pt_doing : activity; pt_rest : list lsection; pt_outs : list (list (option (@output T))) }.
(** memory, the shared arrays' objects, who holds the lock, the threads *)
Record scene := Scene { sc_heap : heap T; sc_shared : list (option multi_array); sc_lock : lock; sc_parties : list party }.

(** the variables inside of a section that holds the lock, and after it *)
Definition with_shared (shared : list (option multi_array)) (en : env) : env :=
  Env (shared ++ skipn (length shared) (e_vars en)) (e_handles en).
Definition without_shared (g : nat) (en : env) : env := Env (repeat None g ++ skipn g (e_vars en)) (e_handles en).

(** thread i takes a step *)
Inductive scene_step (chk : bool) : nat -> scene -> scene -> Prop :=
| mu_begin : forall h shared lk l i en p rest outs, nth_error l i = Some (Party (Resting en) (Alone p :: rest) outs) ->
    scene_step chk i (Scene h shared lk l)
      (Scene h shared lk (set_nth i (Party (Working NotHeld (j_thread dflt eqT ltT chk en p) None) rest outs) l))
| mu_lock : forall h shared l i en p rest outs, nth_error l i = Some (Party (Resting en) (Locked p :: rest) outs) ->
    scene_step chk i (Scene h shared LFree l)
      (Scene h shared (LBy i) (set_nth i (Party (Working HeldAlone (j_thread dflt eqT ltT chk (with_shared shared en) p) None) rest outs) l))
| mu_share : forall h shared lk lk' l i en p rest outs, nth_error l i = Some (Party (Resting en) (Reading p :: rest) outs) ->
    share i lk = Some lk' ->
    scene_step chk i (Scene h shared lk l)
      (Scene h shared lk' (set_nth i (Party (Working HeldShared (j_thread dflt eqT ltT chk (with_shared shared en) p) None) rest outs) l))
| mu_work : forall h shared lk l i b m f rest outs m' h' f', nth_error l i = Some (Party (Working b m f) rest outs) ->
    job_step m h f = Some (m', h', f') ->
    scene_step chk i (Scene h shared lk l) (Scene h' shared lk (set_nth i (Party (Working b m' f') rest outs) l))
| mu_end : forall h shared lk l i en os f rest outs, nth_error l i = Some (Party (Working NotHeld (JRet (en, os)) f) rest outs) ->
    scene_step chk i (Scene h shared lk l) (Scene h shared lk (set_nth i (Party (Resting en) rest (outs ++ [os])) l))
| mu_unlock : forall h shared lk l i en os f rest outs, nth_error l i = Some (Party (Working HeldAlone (JRet (en, os)) f) rest outs) ->
    scene_step chk i (Scene h shared lk l)
      (Scene h (firstn (length shared) (e_vars en)) LFree
             (set_nth i (Party (Resting (without_shared (length shared) en)) rest (outs ++ [os])) l))
| mu_unshare : forall h shared lk l i en os f rest outs, nth_error l i = Some (Party (Working HeldShared (JRet (en, os)) f) rest outs) ->
    scene_step chk i (Scene h shared lk l)
      (Scene h shared (unshare i lk) (set_nth i (Party (Resting (without_shared (length shared) en)) rest (outs ++ [os])) l)).
Inductive scene_steps (chk : bool) : scene -> scene -> Prop :=
| sn_here : forall s, scene_steps chk s s
| sn_step : forall i s s' s'', scene_step chk i s s' -> scene_steps chk s' s'' -> scene_steps chk s s''.
End Lock.
