(** SharedSpec.v -- vocabulary for C62: threads that work on shared objects and
    change their geometry. *)

From Verif Require Import Base StorageOrder Access Objects Memory Ops MultiArray History Stored Threads Shared
  Spec ReachSpec MemSpec ThreadSpec.

Section SharedSpec.
Context {T : Type}.
Variable dflt : T.
Variables (eqT ltT : T -> T -> bool).

(** the accesses to elements that a call amounts to, as the calls of C44 on arrays
    with the geometry they have now *)
Inductive makes (chk : bool) (ke : kenv) : @kcommand T -> list (call T) -> Prop :=
| mk_get : forall e i a, keval_nd chk ke e = Ok a -> makes chk ke (XGet e i) [KGet a i]
| mk_getb : forall e i a, keval_nd chk ke e = Ok a -> makes chk ke (XGetB e i) [KGetBracket a i]
| mk_set : forall e i v a, keval_nd chk ke e = Ok a -> makes chk ke (XSet e i v) [KSet a i v]
| mk_setb : forall e i v a, keval_nd chk ke e = Ok a -> makes chk ke (XSetB e i v) [KSetBracket a i v]
| mk_assign : forall e1 e2 d s, keval_nd chk ke e1 = Ok d -> keval_nd chk ke e2 = Ok s ->
    makes chk ke (XAssign e1 e2) [KAssign d s]
| mk_copy_array : forall e1 e2 d s, keval_nd chk ke e1 = Ok d -> keval_nd chk ke e2 = Ok s ->
    makes chk ke (XCopyArray e1 e2) [KCopyArray s d]
| mk_for_each : forall e f a, keval_nd chk ke e = Ok a -> makes chk ke (XForEach e f) [KForEach f a]
| mk_equal : forall op e1 e2 a b, (op = CEq \/ op = CNe) -> keval_nd chk ke e1 = Ok a -> keval_nd chk ke e2 = Ok b ->
    makes chk ke (XCompare op e1 e2) [KEqual a b]
| mk_less : forall op e1 e2 a b, (op = CLt \/ op = CGe) -> keval_nd chk ke e1 = Ok a -> keval_nd chk ke e2 = Ok b ->
    makes chk ke (XCompare op e1 e2) [KLess a b]
| mk_greater : forall op e1 e2 a b, (op = CGt \/ op = CLe) -> keval_nd chk ke e1 = Ok a -> keval_nd chk ke e2 = Ok b ->
    makes chk ke (XCompare op e1 e2) [KLess b a]
| mk_fill : forall x l a, var (ke_env ke) x = Ok a -> makes chk ke (XDo (Fill x l)) [KFill (ma_ref a) l]
| mk_fill_ref : forall h l c, named (ke_env ke) h = Ok (HRef c) -> makes chk ke (XDo (FillRef h l)) [KFill c l]
| mk_assign_var : forall x y a b, x <> y -> var (ke_env ke) x = Ok a -> var (ke_env ke) y = Ok b ->
    makes chk ke (XDo (AssignVar x y)) [KAssign (cr_nd (ma_ref a)) (cr_nd (ma_ref b))]
| mk_assign_self : forall x a, var (ke_env ke) x = Ok a -> makes chk ke (XDo (AssignVar x x)) []
| mk_read : forall k o a i, kept_at ke k = Ok o -> kept_nd (ke_env ke) o = Ok a -> k_kind o = IsIter i ->
    makes chk ke (XRead k) [KGetBracket a [i]]
| mk_read_rev : forall k o a i, kept_at ke k = Ok o -> kept_nd (ke_env ke) o = Ok a -> k_kind o = IsRev i ->
    makes chk ke (XRead k) [KGetBracket a [i - 1]]
| mk_write : forall k o a i v, kept_at ke k = Ok o -> kept_nd (ke_env ke) o = Ok a -> k_kind o = IsIter i ->
    makes chk ke (XWrite k v) [KSetBracket a [i] v]
| mk_write_rev : forall k o a i v, kept_at ke k = Ok o -> kept_nd (ke_env ke) o = Ok a -> k_kind o = IsRev i ->
    makes chk ke (XWrite k v) [KSetBracket a [i - 1] v].

(** calls that access no element: reindex, reshape, it += n, it1 == it2,
    it2 - it1, and the geometry queries *)
Definition geometry_only (c : @kcommand T) : Prop :=
  match c with
  | XDo (Reindex _ _) | XDo (ReindexAll _ _) | XDo (Reshape _ _) | XDo (ReindexNamed _ _)
  | XDo (ReindexNamedAll _ _) | XDo (ReshapeRef _ _) | XMove _ _ | XSame _ _ | XDistance _ _ | XAsk _ _ => True
  | _ => False
  end.

(** the thread alone, started on the objects [ke], makes the accesses [ks]; its
    calls that only concern geometry succeed *)
Inductive accesses (chk : bool) : kenv -> list (@kcommand T) -> list (call T) -> Prop :=
| ac_end : forall ke, accesses chk ke [] []
| ac_elements : forall ke c t ks rest, makes chk ke c ks -> accesses chk ke t rest ->
    accesses chk ke (c :: t) (ks ++ rest)
| ac_geometry : forall ke c t ke' o rest, geometry_only c ->
    (forall h, kexec dflt eqT ltT chk ke c (World h None) = Done (ke', o) (World h None)) ->
    accesses chk ke' t rest -> accesses chk ke (c :: t) rest.

(** no thread changes the members of an object that a call of another thread looks
    at (or changes) *)
Definition undisturbed (ke : kenv) (threads : list (list (@kcommand T))) : Prop :=
  forall i j t u c c' o, i <> j -> nth_error threads i = Some t -> nth_error threads j = Some u ->
    In c t -> In c' u -> In o (changes c) -> ~ In o (looks_at ke c') /\ ~ In o (changes c').

(** two threads are about to access the same element, one of them writing *)
Definition reads_next (w : worker T) (p : ptr) : Prop := exists c k, wk_now w = Some (c, PLoad p k).
Definition writes_next (w : worker T) (p : ptr) : Prop := exists c v k, wk_now w = Some (c, PStore p v k).
Definition element_race (pool : list (worker T)) : Prop :=
  exists i j w v p, i <> j /\ nth_error pool i = Some w /\ nth_error pool j = Some v /\
    writes_next w p /\ (reads_next v p \/ writes_next v p).
(** the call a thread is in or, if it is in none, the one it is about to begin *)
Definition current (w : worker T) (c : @kcommand T) : Prop :=
  (exists m, wk_now w = Some (c, m)) \/ (wk_now w = None /\ hd_error (wk_todo w) = Some c).
(** the current call of one thread changes the members of an object that the
    current call of another thread looks at or changes *)
Definition object_race (ke : kenv) (pool : list (worker T)) : Prop :=
  exists i j w v c c' o, i <> j /\ nth_error pool i = Some w /\ nth_error pool j = Some v /\
    current w c /\ current v c' /\ In o (changes c) /\ (In o (looks_at ke c') \/ In o (changes c')).

(** run the threads one after another, each to its end, in the given order *)
Fixpoint alone (chk : bool) (ke : kenv) (t : list (@kcommand T)) : M T (kenv * list (@output T)) :=
  match t with
  | [] => ret (ke, [])
  | c :: rest =>
      r <~ kexec dflt eqT ltT chk ke c ;; q <~ alone chk (fst r) rest ;; ret (fst q, snd r :: snd q)
  end.
Fixpoint in_turn (chk : bool) (ke : kenv) (threads : list (list (@kcommand T))) (order : list nat)
  : M T (kenv * list (nat * list (@output T))) :=
  match order with
  | [] => ret (ke, [])
  | i :: rest =>
      match nth_error threads i with
      | Some t => r <~ alone chk ke t ;; q <~ in_turn chk (fst r) threads rest ;; ret (fst q, (i, snd r) :: snd q)
      | None => fun _ => Undef
      end
  end.
(** all threads are done, with these answers *)
Definition all_done (pool : list (worker T)) (results : list (list (@output T))) : Prop :=
  pool = map (fun outs => Worker outs None []) results.
End SharedSpec.

(** expressions over views and refs only, whatever temporaries they go through *)
Fixpoint from_named (e : kexpr) : Prop :=
  match e with
  | XVar _ | XKept _ | XDeref _ | XIndex _ _ => False
  | XNamed _ => True
  | XSub e _ | XView e _ | XRow e _ | XRev_row e _ => from_named e
  end.
