(** LockSpec.v -- vocabulary for C69: sections of commands taking turns, each executed whole *)

From Coq Require Import ZArith List Bool.
From Verif Require Import Base Access Memory History Concur Lock Spec HistorySpec CostSpec ConcurSpec.
Import ListNotations.

Section LockSpec.
Context {T : Type}.
Variable dflt : T.
Variable eqT ltT : T -> T -> bool.

(** the state of a thread inside of a section that holds the lock, the shared arrays being sh *)
Definition entered (sh : list (option arr)) (st : @state T) : @state T :=
  St (sh ++ skipn (length sh) (s_arrays st)) (s_named st).
(** the state of a thread after the section: no shared arrays, and no names of their elements *)
Definition left_behind (g : nat) (st : @state T) : @state T :=
  St (repeat None g ++ skipn g (s_arrays st))
     (map (fun o => match o with Some n => if Nat.ltb (owner n) g then None else Some n | None => None end) (s_named st)).

(** a thread: its state, the sections it has still to do, the outputs of those it has done *)
Definition turns : Type := list (@state T * list (@lsection T) * list (list (option (@output T)))).
(** some thread does its next section, all of it at once *)
Inductive turn : list (option (@arr T)) * turns -> list (option (@arr T)) * turns -> Prop :=
| tu_alone : forall sh l i st p rest outs os st', nth_error l i = Some (st, Alone p :: rest, outs) ->
    private_run dflt eqT ltT 0 st p os st' -> turn (sh, l) (sh, set_nth i (st', rest, outs ++ [os]) l)
| tu_locked : forall sh l i st p rest outs os st', nth_error l i = Some (st, Locked p :: rest, outs) ->
    private_run dflt eqT ltT 0 (entered sh st) p os st' ->
    turn (sh, l) (firstn (length sh) (s_arrays st'), set_nth i (left_behind (length sh) st', rest, outs ++ [os]) l)
| tu_reading : forall sh l i st p rest outs os st', nth_error l i = Some (st, Reading p :: rest, outs) ->
    private_run dflt eqT ltT (length sh) (entered sh st) p os st' ->
    turn (sh, l) (sh, set_nth i (left_behind (length sh) st', rest, outs ++ [os]) l).
Inductive take_turns : list (option (@arr T)) * turns -> list (option (@arr T)) * turns -> Prop :=
| tt_here : forall a, take_turns a a
| tt_turn : forall a a' a'', take_turns a a' -> turn a' a'' -> take_turns a a''.

(** whatever the order of the sections, each keeps to the library's contract; and a reader changes
    only arrays of its own *)
Definition turns_legal (a : list (option (@arr T)) * turns) : Prop :=
  forall sh l i st sec rest outs, take_turns a (sh, l) -> nth_error l i = Some (st, sec :: rest, outs) ->
    match sec with
    | Alone p => private_legal dflt eqT ltT 0 st p
    | Locked p => private_legal dflt eqT ltT 0 (entered sh st) p
    | Reading p => private_legal dflt eqT ltT (length sh) (entered sh st) p
    end.

(** two threads are about to use the same block, one of them changing it *)
Definition collide (s : @scene T) : Prop :=
  exists i j b c m n f f' r r' o o' x, i <> j /\
    nth_error (sc_parties s) i = Some (Party (Working b m f) r o) /\ nth_error (sc_parties s) j = Some (Party (Working c n f') r' o') /\
    about_to_change m x /\ (about_to_use n x \/ about_to_change n x).
(** thread i holds the lock, alone or with others *)
Definition has_lock (lk : lock) (i : nat) : Prop := match lk with LFree => False | LBy j => j = i | LShared r => In i r end.
(** thread i, now at q, is done; or waits for the lock, which another one holds, to write; or waits, to read,
    for the one who holds it alone; or can take a step *)
Definition goes_on (chk : bool) (s : @scene T) (i : nat) (q : @party T) : Prop :=
  (exists en outs, q = Party (Resting en) [] outs) \/
  (exists en p rest outs j, q = Party (Resting en) (Locked p :: rest) outs /\ has_lock (sc_lock s) j /\ j <> i) \/
  (exists en p rest outs j, q = Party (Resting en) (Reading p :: rest) outs /\ sc_lock s = LBy j /\ j <> i) \/
  exists s', scene_step dflt eqT ltT chk i s s'.
End LockSpec.
