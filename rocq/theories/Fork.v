(** Fork.v -- programs that run threads and wait for them.

    There is no code in /repo for this: starting a thread and waiting for it are
    std::thread's constructor and join().  What the threads and the program itself do to
    arrays is Concur.v's j_thread (and History.v's run_catching, which c66_threads_are_programs
    shows to be the same when it is not interrupted).  Simplified: a thread cannot start
    threads; the names and variables a thread makes end with it. *)

From Coq Require Import ZArith List Bool.
From Verif Require Import Base StorageOrder Ranges Layout Access Objects Memory Ops MultiArray History Concur.
Import ListNotations.

Section Fork.
Context {T : Type}.
Variable dflt : T.
Variable eqT ltT : T -> T -> bool.

(** a part of a program: commands, each with the place where an operation throws (every
    exception is caught); or threads, started together and waited for *)
Inductive phase :=
| Serial (p : list (@command T * option nat))
| Parallel (threads : list (list (@command T * option nat))).

(** where a run is: between two phases, or with threads running.  outs are the outputs so
    far: one list per phase, with one list per thread *)
Inductive moment :=
| Between (en : env) (h : heap T) (rest : list phase) (outs : list (list (list (option (@output T)))))
| During (en : env) (pool : list (job T (env * list (option (@output T))) * option nat)) (h : heap T)
         (rest : list phase) (outs : list (list (list (option (@output T))))).

Inductive fork_step (chk : bool) : moment -> moment -> Prop :=
| go_serial : forall en h p rest outs en' os h', run_catching dflt eqT ltT chk en p h = Done (en', os) (World h' None) ->
    fork_step chk (Between en h (Serial p :: rest) outs) (Between en' h' rest (outs ++ [[os]]))
| go_fork : forall en h threads rest outs,
    fork_step chk (Between en h (Parallel threads :: rest) outs)
                  (During en (map (fun p => (j_thread dflt eqT ltT chk en p, None)) threads) h rest outs)
| go_work : forall en pool h pool' h' rest outs, c_step (h, pool) (h', pool') ->
    fork_step chk (During en pool h rest outs) (During en pool' h' rest outs)
| go_join : forall en h rest outs (ends : list ((env * list (option (@output T))) * option nat)),
    fork_step chk (During en (map (fun e => (JRet (fst e), snd e)) ends) h rest outs)
                  (Between en h rest (outs ++ [map (fun e => snd (fst e)) ends])).
Inductive fork_steps (chk : bool) : moment -> moment -> Prop :=
| fs_here : forall s, fork_steps chk s s
| fs_step : forall s s' s'', fork_step chk s s' -> fork_steps chk s' s'' -> fork_steps chk s s''.
End Fork.
