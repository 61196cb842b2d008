(** StoredSpec.v -- the longhand reading of programs that keep subarrays and
    iterators: a kept subarray is nothing but an abbreviation of the expression it
    was made from, and a kept iterator of an array e is an abbreviation of an index
    of e.  The longhand machine stores no pointers at all; it evaluates the
    abbreviated expression anew at every use, and refuses to go on when an
    abbreviation is used whose variable or name has been given another geometry
    (or destroyed) in the meantime. *)

From Verif Require Import Base StorageOrder Ranges Layout Access Objects Memory Ops MultiArray History Stored.

Inductive note := NSub (e : expr) | NIter (e : expr) (i : Z) | NRev (e : expr) (i : Z) | NStale.
Record lenv := LEnv { le_env : env; le_notes : list note }.

(** n places back.  (C++ negates n first: n must not be the smallest index.) *)
Definition back (i n : Z) : outcome Z := m <- ssub 0 n ;; sadd i m.
(** the index an iterator moved n places refers to; a reverse iterator refers to
    the index before its position *)
Definition referred (o : note) (n : Z) : option (expr * Z) :=
  match o with
  | NIter e i => match sadd i n with Ok j => Some (e, j) | _ => None end
  | NRev e i => match (m <- back i n ;; ssub m 1) with Ok j => Some (e, j) | _ => None end
  | _ => None
  end.
Definition refers (notes : list note) (k : nat) (n : Z) : option (expr * Z) :=
  match nth_error notes k with Some o => referred o n | None => None end.

(** an expression written out without kept objects; None = not possible *)
Fixpoint written (notes : list note) (e : kexpr) : option expr :=
  match e with
  | XVar x => Some (Var x)
  | XNamed h => Some (Named h)
  | XKept k => match nth_error notes k with Some (NSub e) => Some e | _ => None end
  | XDeref k => match refers notes k 0 with Some (e, i) => Some (Sub e i) | None => None end
  | XIndex k n => match refers notes k n with Some (e, i) => Some (Sub e i) | None => None end
  | XSub e i => match written notes e with Some e' => Some (Sub e' i) | None => None end
  | XView e subs => match written notes e with Some e' => Some (View_of e' subs) | None => None end
  | XRow e n => match written notes e with Some e' => Some (Row e' n) | None => None end
  | XRev_row e n => match written notes e with Some e' => Some (Rev_row e' n) | None => None end
  end.

(** the variable or name an expression starts from; a view is an object of its own *)
Fixpoint head (e : expr) : parent :=
  match e with
  | Var x => PVar x | Named h => PNamed h | View_of _ _ => PGone
  | Sub e _ | Row e _ | Rev_row e _ => head e
  end.

(** a kept object of an unnamed view would outlive the view: such an abbreviation
    cannot be used at all *)
Definition unless_gone (e : expr) (n : note) : note := match head e with PGone => NStale | _ => n end.

(** the commands that give a variable or name another geometry, or end it *)
Definition regeometries {T : Type} (c : @command T) (p : parent) : bool :=
  match c, p with
  | Destroy x, PVar y | Reindex x _, PVar y | ReindexAll x _, PVar y | Reshape x _, PVar y
  | Resize x _, PVar y | ResizeList x _, PVar y => Nat.eqb x y
  | ReindexNamed h _, PNamed k | ReindexNamedAll h _, PNamed k | ReshapeRef h _, PNamed k => Nat.eqb h k
  | _, _ => false
  end.
(** abbreviations of expressions that start from a changed variable or name are
    not used any more *)
Definition age {T : Type} (c : @command T) (n : note) : note :=
  match n with
  | NSub e | NIter e _ | NRev e _ => if regeometries c (head e) then NStale else n
  | NStale => NStale
  end.

Definition subscript_eq_dec (a b : subscript) : {a = b} + {a <> b}.
Proof. repeat decide equality. Defined.
Definition expr_eq_dec (a b : expr) : {a = b} + {a <> b}.
Proof.
  decide equality; try apply Nat.eq_dec; try apply Z.eq_dec. apply (list_eq_dec subscript_eq_dec).
Defined.

Section StoredSpec.
Context {T : Type}.
Variable dflt : T.
Variable eqT : T -> T -> bool.
Variable ltT : T -> T -> bool.

(** the first index, or one past the last *)
Definition first_index (a : nd) : outcome Z := match nd_base a with b :: _ => Ok b | [] => UB end.
Definition end_index (a : nd) : outcome Z :=
  match nd_base a, nd_ext a with b :: _, e :: _ => sadd b (to_index e) | _, _ => UB end.

(** a command written out without kept objects; None = it is not a command on
    arrays, or not possible *)
Definition as_command (notes : list note) (c : @kcommand T) : option (@command T) :=
  let one e f := match written notes e with Some e' => Some (f e') | None => None end in
  let two a b f := match written notes a, written notes b with Some a', Some b' => Some (f a' b') | _, _ => None end in
  match c with
  | XDo c => Some c
  | XNewFrom e so aid => one e (fun e => NewFrom e so aid)
  | XNewView e subs => one e (fun e => NewView e subs)
  | XAssign d s => two d s Assign
  | XCopyArray d s => two d s CopyArray
  | XGet e i => one e (fun e => Get e i)
  | XSet e i v => one e (fun e => Set_ e i v)
  | XGetB e i => one e (fun e => GetB e i)
  | XSetB e i v => one e (fun e => SetB e i v)
  | XForEach e f => one e (fun e => ForEach e f)
  | XCompare op a b => two a b (Compare op)
  | XAsk q e => one e (Ask q)
  | XRead k => match refers notes k 0 with Some (e, i) => Some (GetB e [i]) | None => None end
  | XWrite k v => match refers notes k 0 with Some (e, i) => Some (SetB e [i] v) | None => None end
  | _ => None
  end.

Definition abbreviate (le : lenv) (n : note) : lenv := LEnv (le_env le) (le_notes le ++ [n]).

Definition lexec (chk : bool) (le : lenv) (c : @kcommand T) : M T (lenv * @output T) :=
  match c with
  | XKeep e =>
      match written (le_notes le) e with
      | Some e' =>
          o <~ lift (eval chk (le_env le) e') ;;
          match o with OSub _ => ret (abbreviate le (unless_gone e' (NSub e')), ONone) | _ => fun _ => Undef end
      | None => fun _ => Undef
      end
  | XStart w e =>
      match written (le_notes le) e with
      | Some e' =>
          a <~ lift (eval_nd chk (le_env le) e') ;;
          i <~ lift (match w with EBegin | EREnd => first_index a | EEnd | ERBegin => end_index a end) ;;
          ret (abbreviate le (unless_gone e' (match w with EBegin | EEnd => NIter e' i | _ => NRev e' i end)), ONone)
      | None => fun _ => Undef
      end
  | XMove k n =>
      match nth_error (le_notes le) k with
      | Some (NIter e i) => j <~ lift (sadd i n) ;; ret (LEnv (le_env le) (set_nth k (NIter e j) (le_notes le)), ONone)
      | Some (NRev e i) => j <~ lift (back i n) ;; ret (LEnv (le_env le) (set_nth k (NRev e j) (le_notes le)), ONone)
      | _ => fun _ => Undef
      end
  | XCopyOf k =>
      match nth_error (le_notes le) k with Some n => ret (abbreviate le n, ONone) | None => fun _ => Undef end
  | XSame j k =>       (* only iterators of the same array are compared *)
      match nth_error (le_notes le) j, nth_error (le_notes le) k with
      | Some (NIter e m), Some (NIter e' n) | Some (NRev e m), Some (NRev e' n) =>
          fun w => if expr_eq_dec e e' then Done (le, OBool (m =? n)) w else Undef
      | _, _ => fun _ => Undef
      end
  | XDistance j k =>
      match nth_error (le_notes le) j, nth_error (le_notes le) k with
      | Some (NIter e m), Some (NIter e' n) => d <~ lift (ssub n m) ;; ret (le, OInt d)
      | Some (NRev e m), Some (NRev e' n) => d <~ lift (ssub m n) ;; ret (le, OInt d)
      | _, _ => fun _ => Undef
      end
  | _ =>
      match as_command (le_notes le) c with
      | Some c' =>
          r <~ exec dflt eqT ltT chk (le_env le) c' ;;
          ret (LEnv (fst r) (map (age c') (le_notes le)), snd r)
      | None => fun _ => Undef
      end
  end.
End StoredSpec.

(** * the same machine over the abstract states of HistorySpec.v *)
From Verif Require Import Spec HistorySpec.

Section StoredSteps.
Context {T : Type}.
Variable dflt : T.
Variable eqT : T -> T -> bool.
Variable ltT : T -> T -> bool.

(** does the expression stand for a subarray (not a whole array or view)? *)
Definition is_subarray (e : expr) : bool := match e with Sub _ _ | Row _ _ | Rev_row _ _ => true | _ => false end.
Definition edge_index (w : edge) (b n : Z) : Z := match w with EBegin | EREnd => b | EEnd | ERBegin => b + n end.
Definition edge_note (w : edge) (e : expr) (i : Z) : note := match w with EBegin | EEnd => NIter e i | _ => NRev e i end.

Inductive kstep (st : @state T) (ns : list note) : @kcommand T -> @output T -> @state T -> list note -> Prop :=
| ks_command : forall c c' o st', as_command ns c = Some c' -> step dflt eqT ltT st c' o st' ->
    kstep st ns c o st' (map (age c') ns)
| ks_keep : forall e e' p, written ns e = Some e' -> is_subarray e' = true -> denotes st e' p ->
    kstep st ns (XKeep e) ONone st (ns ++ [unless_gone e' (NSub e')])
| ks_start : forall w e e' x b bs n shape strides m,
    written ns e = Some e' -> denotes st e' (Place x (b :: bs) (n :: shape) strides m) ->
    kstep st ns (XStart w e) ONone st (ns ++ [unless_gone e' (edge_note w e' (edge_index w b n))])
| ks_move : forall k n e i, nth_error ns k = Some (NIter e i) -> index_value (i + n) ->
    kstep st ns (XMove k n) ONone st (set_nth k (NIter e (i + n)) ns)
| ks_move_back : forall k n e i, nth_error ns k = Some (NRev e i) -> index_value (- n) -> index_value (i - n) ->
    kstep st ns (XMove k n) ONone st (set_nth k (NRev e (i - n)) ns)
| ks_copy : forall k n, nth_error ns k = Some n -> kstep st ns (XCopyOf k) ONone st (ns ++ [n])
| ks_same : forall j k e m n, nth_error ns j = Some (NIter e m) -> nth_error ns k = Some (NIter e n) ->
    kstep st ns (XSame j k) (OBool (m =? n)) st ns
| ks_same_back : forall j k e m n, nth_error ns j = Some (NRev e m) -> nth_error ns k = Some (NRev e n) ->
    kstep st ns (XSame j k) (OBool (m =? n)) st ns
| ks_distance : forall j k e m n, nth_error ns j = Some (NIter e m) -> nth_error ns k = Some (NIter e n) ->
    index_value (n - m) -> kstep st ns (XDistance j k) (OInt (n - m)) st ns
| ks_distance_back : forall j k e m n, nth_error ns j = Some (NRev e m) -> nth_error ns k = Some (NRev e n) ->
    index_value (m - n) -> kstep st ns (XDistance j k) (OInt (m - n)) st ns.

Inductive ksteps (st : @state T) (ns : list note) : list (@kcommand T) -> list (@output T) -> @state T -> list note -> Prop :=
| kss_nil : ksteps st ns [] [] st ns
| kss_cons : forall c o st1 ns1 p os st2 ns2, kstep st ns c o st1 ns1 -> ksteps st1 ns1 p os st2 ns2 ->
    ksteps st ns (c :: p) (o :: os) st2 ns2.
End StoredSteps.
