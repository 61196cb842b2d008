(** RelocSpec.v -- vocabulary for C55: where storage lies does not matter.

    A program's storage may lie anywhere: at other block identities, next to
    blocks of other parts of the program, moved between two calls, or at
    identities that were used by blocks returned earlier.  This file says when
    one state of a program is the other one "lying somewhere else", and what it
    means for several independent parts of a program to run interleaved on one
    shared heap. *)

From Verif Require Import Base StorageOrder Ranges Layout Access Objects Memory Ops MultiArray History.

(** which block of the first heap lies where in the second heap *)
Definition placement : Type := nat -> nat -> Prop.

Definition live_block {T : Type} (h : heap T) (b : nat) : Prop := hblock h b <> None.

(** every live block that is placed has an exact copy (same allocator, same
    cells) at its place, and different live blocks have different places.  Blocks
    already returned may be "placed" anywhere: their place may be in use again. *)
Record embeds {T : Type} (R : placement) (h h' : heap T) : Prop := Embeds {
  emb_known : forall b b', R b b' -> (b < length h)%nat;
  emb_copy : forall b b' k, R b b' -> hblock h b = Some k -> hblock h' b' = Some k;
  emb_one_place : forall b x y, R b x -> R b y -> live_block h b -> x = y;
  emb_apart : forall a b x, R a x -> R b x -> live_block h a -> live_block h b -> a = b
}.

(** the same pointer / array / object, lying somewhere else *)
Definition ptr_moved (R : placement) (p q : ptr) : Prop :=
  R (p_blk p) (p_blk q) /\ p_off p = p_off q.
Record cref_moved (R : placement) (c d : cref) : Prop := CRefMoved {
  cm_base : ptr_moved R (cr_base c) (cr_base d);
  cm_storage : cr_storage c = cr_storage d;
  cm_ext : cr_ext c = cr_ext d;
  cm_str : cr_str c = cr_str d;
  cm_ib : cr_ib c = cr_ib d;
  cm_oo : cr_origin_offset c = cr_origin_offset d;
  cm_do : cr_directional_offset c = cr_directional_offset d;
  cm_num : cr_num c = cr_num d
}.
Record view_moved (R : placement) (c d : view) : Prop := ViewMoved {
  vm_base : ptr_moved R (v_base c) (v_base d);
  vm_oo : v_origin_offset c = v_origin_offset d;
  vm_num : v_num c = v_num d;
  vm_ext : v_ext c = v_ext d;
  vm_str : v_str c = v_str d;
  vm_ib : v_ib c = v_ib d
}.
Record ma_moved (R : placement) (a b : multi_array) : Prop := MAMoved {
  mm_ref : cref_moved R (ma_ref a) (ma_ref b);
  mm_base : ptr_moved R (ma_base a) (ma_base b);
  mm_elems : ma_alloc_elems a = ma_alloc_elems b;
  mm_aid : ma_aid a = ma_aid b
}.
Inductive var_moved (R : placement) : option multi_array -> option multi_array -> Prop :=
| gone_moved : var_moved R None None
| array_moved : forall a b, ma_moved R a b -> var_moved R (Some a) (Some b).
Inductive handle_moved (R : placement) : handle -> handle -> Prop :=
| hview_moved : forall v w, view_moved R v w -> handle_moved R (HView v) (HView w)
| href_moved : forall c d, cref_moved R c d -> handle_moved R (HRef c) (HRef d).
Record env_moved (R : placement) (en en' : env) : Prop := EnvMoved {
  em_vars : Forall2 (var_moved R) (e_vars en) (e_vars en');
  em_handles : Forall2 (handle_moved R) (e_handles en) (e_handles en')
}.

(** the same program state, lying somewhere else (and possibly among blocks the
    program knows nothing about) *)
Definition relocated {T : Type} (en : env) (h : heap T) (en' : env) (h' : heap T) : Prop :=
  exists R, embeds R h h' /\ env_moved R en en'.

(** ** Programs whose storage is moved while they run *)
Section Moving.
Context {T : Type}.
Variables (dflt : T) (eqT ltT : T -> T -> bool) (chk : bool).

(** before every command the whole state may be moved: storage compacted, blocks
    of somebody else inserted or removed, identities of returned blocks reused.
    A command comes with the number of the operation inside it that throws, if
    any, and the exception is caught (outputs: None). *)
Inductive moving_run : env -> heap T -> list (command * option nat) -> list (option output) -> Prop :=
| moving_end : forall en h, moving_run en h [] []
| moving_move : forall en h en' h' p os,
    relocated en h en' h' -> moving_run en' h' p os -> moving_run en h p os
| moving_step : forall en h c f p en' o w os,
    exec dflt eqT ltT chk en c (World h f) = Done (en', o) w ->
    moving_run en' (w_heap w) p os -> moving_run en h ((c, f) :: p) (Some o :: os)
| moving_throw : forall en h c f p w os,
    exec dflt eqT ltT chk en c (World h f) = Thrown w ->
    moving_run en (w_heap w) p os -> moving_run en h ((c, f) :: p) (None :: os).

(** ** Independent parts of a program sharing one heap *)

(** the parts have variables and handles of their own; a schedule says which part
    makes the next call *)
Fixpoint run_together (ens : list env) (sched : list (nat * (command * option nat))) (h : heap T)
  : res T (list env * list (nat * option output)) :=
  match sched with
  | [] => Done (ens, []) (World h None)
  | (i, (c, f)) :: rest =>
      match nth_error ens i with
      | None => Undef
      | Some en =>
          match exec dflt eqT ltT chk en c (World h f) with
          | Done (en', o) w =>
              match run_together (set_nth i en' ens) rest (w_heap w) with
              | Done (ens2, os) w2 => Done (ens2, (i, Some o) :: os) w2
              | r => r
              end
          | Thrown w =>
              match run_together ens rest (w_heap w) with
              | Done (ens2, os) w2 => Done (ens2, (i, None) :: os) w2
              | r => r
              end
          | Aborted w => Aborted w
          | Undef => Undef
          | OutOfFuel => OutOfFuel
          end
      end
  end.
End Moving.

(** what concerns part [i] in a schedule or in the outputs *)
Definition part {A : Type} (i : nat) (l : list (nat * A)) : list A :=
  map snd (filter (fun e => Nat.eqb (fst e) i) l).

(** [n] parts lie side by side in one heap [h]: each is its own state lying
    somewhere in [h], no block is used by two parts, and every block that is not
    yet returned belongs to one of them. *)
Definition side_by_side {T : Type} (n : nat) (own_env : nat -> env) (own_heap : nat -> heap T)
    (ens : list env) (h : heap T) : Prop :=
  exists R : nat -> placement,
    length ens = n /\
    (forall i en, nth_error ens i = Some en -> embeds (R i) (own_heap i) h /\ env_moved (R i) (own_env i) en) /\
    (forall i j a b x, (i < n)%nat -> (j < n)%nat -> R i a x -> R j b x ->
       live_block (own_heap i) a -> live_block (own_heap j) b -> i = j) /\
    (forall x, live_block h x -> exists i a, (i < n)%nat /\ R i a x /\ live_block (own_heap i) a).
