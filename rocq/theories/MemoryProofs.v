(** MemoryProofs.v -- cells, element copies, construction and destruction. *)

From Coq Require Import ZArith List Bool Lia.
From Verif Require Import Base Access Memory Spec Facts AccessProofs.
Import ListNotations.
Local Open Scope Z_scope.

Lemma ptr_eqb_eq p q : ptr_eqb p q = true <-> p = q.
Proof.
  destruct p as [a x], q as [b y]; unfold ptr_eqb; simpl.
  rewrite andb_true_iff, Nat.eqb_eq, Z.eqb_eq. split; [intros [-> ->]; auto|intros H; inversion H; auto].
Qed.
Lemma ptr_eqb_refl p : ptr_eqb p p = true.
Proof. apply ptr_eqb_eq; auto. Qed.
Lemma ptr_eq_dec (p q : ptr) : {p = q} + {p <> q}.
Proof. destruct (ptr_eqb p q) eqn:E; [left; apply ptr_eqb_eq; auto|right; intros ->; rewrite ptr_eqb_refl in E; discriminate]. Qed.

Section MemoryProofs.
Context {T : Type}.

(** * Heaps of the same structure *)

(** same blocks alive, same allocators, same sizes *)
Definition same_frame (h h' : heap T) : Prop :=
  length h = length h' /\
  forall b, match hblock h b, hblock h' b with
            | Some k, Some k' => b_alloc k = b_alloc k' /\ length (b_cells k) = length (b_cells k')
            | None, None => True
            | _, _ => False
            end.

Lemma same_frame_refl h : same_frame h h.
Proof. split; auto. intros b. destruct (hblock h b); auto. Qed.
Lemma same_frame_trans h1 h2 h3 : same_frame h1 h2 -> same_frame h2 h3 -> same_frame h1 h3.
Proof.
  intros [L1 H1] [L2 H2]. split; [congruence|]. intros b. specialize (H1 b). specialize (H2 b).
  destruct (hblock h1 b), (hblock h2 b), (hblock h3 b); try tauto. intuition congruence.
Qed.

Definition init (h : heap T) (p : ptr) : Prop := exists v, hcell h p = Some (Some v).

Lemma hblock_set_eq (h : heap T) b k : (b < length h)%nat -> hblock (set_nth b k h) b = k.
Proof. intros H. unfold hblock. rewrite nth_error_set_nth_eq by auto. destruct k; auto. Qed.
Lemma hblock_set_ne (h : heap T) b b' k : b <> b' -> hblock (set_nth b k h) b' = hblock h b'.
Proof. intros H. unfold hblock. rewrite nth_error_set_nth_ne by auto. auto. Qed.
Lemma hblock_lt (h : heap T) b k : hblock h b = Some k -> (b < length h)%nat.
Proof.
  unfold hblock. destruct (nth_error h b) eqn:E; [|discriminate]. intros _.
  apply nth_error_Some. congruence.
Qed.

Lemma hcell_inv (h : heap T) p c : hcell h p = Some c -> exists k, hblock h (p_blk p) = Some k /\
  0 <= p_off p < Z.of_nat (length (b_cells k)) /\ nth_error (b_cells k) (Z.to_nat (p_off p)) = Some c.
Proof.
  unfold hcell. destruct (hblock h (p_blk p)) as [k|]; [|discriminate].
  destruct (Z.ltb_spec (p_off p) 0); [discriminate|]. intros E. exists k. split; auto. split; auto.
  assert (Z.to_nat (p_off p) < length (b_cells k))%nat by (apply nth_error_Some; congruence). lia.
Qed.

Lemma hset_spec (h : heap T) p c c0 : hcell h p = Some c0 -> exists h', hset h p c = Some h' /\
  same_frame h h' /\ (forall q, hcell h' q = if ptr_eqb p q then Some c else hcell h q) /\
  (forall b, b <> p_blk p -> nth_error h' b = nth_error h b).
Proof.
  intros Hc. destruct (hcell_inv _ _ _ Hc) as (k & Hk & Ho & Hn).
  pose proof (hblock_lt _ _ _ Hk) as Hlt.
  unfold hset. rewrite Hc, Hk. eexists; split; [reflexivity|]. split; [|split].
  - split; [rewrite length_set_nth; auto|]. intros b.
    destruct (Nat.eq_dec (p_blk p) b) as [<-|Hne].
    + rewrite hblock_set_eq, Hk by auto. simpl. rewrite length_set_nth. auto.
    + rewrite hblock_set_ne by auto. destruct (hblock h b); auto.
  - intros q. unfold hcell. destruct (Nat.eq_dec (p_blk p) (p_blk q)) as [E|Hne].
    + rewrite <- E, hblock_set_eq, Hk by auto. simpl.
      destruct (Z.eq_dec (p_off p) (p_off q)) as [E2|Hne2].
      * assert (p = q) as <- by (destruct p, q; simpl in *; congruence). rewrite ptr_eqb_refl.
        destruct (Z.ltb_spec (p_off p) 0); [lia|]. apply nth_error_set_nth_eq. lia.
      * destruct (ptr_eqb p q) eqn:Epq; [apply ptr_eqb_eq in Epq; congruence|].
        destruct (Z.ltb_spec (p_off q) 0); auto. apply nth_error_set_nth_ne. lia.
    + rewrite hblock_set_ne by auto.
      destruct (ptr_eqb p q) eqn:Epq; auto. apply ptr_eqb_eq in Epq. congruence.
  - intros b Hb. apply nth_error_set_nth_ne; auto.
Qed.

Lemma hset_same (h : heap T) p c : hcell h p = Some c -> hset h p c = Some h.
Proof.
  intros Hc. destruct (hcell_inv _ _ _ Hc) as (k & Hk & Ho & Hn).
  unfold hset. rewrite Hc, Hk. f_equal. rewrite (set_nth_same _ c) by auto.
  apply set_nth_same. unfold hblock in Hk. destruct (nth_error h (p_blk p)) as [[k'|]|]; inversion Hk; subst; auto.
  destruct k; auto.
Qed.

Lemma hread_init (h : heap T) p v : hread h p = Ok v <-> hcell h p = Some (Some v).
Proof.
  unfold hread. destruct (hcell h p) as [[u|]|]; split; intros H; inversion H; auto.
Qed.

(** * stateful computations *)

Definition w_of (h : heap T) (f : option nat) : world T := World h f.

Lemma bind_ret {A B} (a : A) (f : A -> M T B) w : bind (ret a) f w = f a w.
Proof. reflexivity. Qed.
Lemma bind_assoc {A B C} (m : M T A) (f : A -> M T B) (g : B -> M T C) w :
  bind (bind m f) g w = bind m (fun x => bind (f x) g) w.
Proof. unfold bind. destruct (m w); auto. Qed.
Lemma bind_ext {A B} (m m' : M T A) (f f' : A -> M T B) w :
  m w = m' w -> (forall a w', f a w' = f' a w') -> bind m f w = bind m' f' w.
Proof. intros E H. unfold bind. rewrite E. destruct (m' w); auto. Qed.
Lemma bind_lift_ok {A B} (a : A) (f : A -> M T B) o w : o = Ok a -> bind (lift o) f w = f a w.
Proof. intros ->. reflexivity. Qed.

(** sequential element copies: (destination, source) *)
Fixpoint copy_cells (l : list (ptr * ptr)) : M T unit :=
  match l with
  | [] => ret tt
  | (d, s) :: r => _ <~ elem_assign d s ;; copy_cells r
  end.

Lemma copy_cells_app l1 l2 w : copy_cells (l1 ++ l2) w = bind (copy_cells l1) (fun _ => copy_cells l2) w.
Proof.
  revert w; induction l1 as [|[d s] l1 IH]; intros w; auto. simpl copy_cells.
  rewrite bind_assoc. apply bind_ext; auto.
Qed.

(** ** the effect of a list of element copies on memory *)

Definition mem : Type := ptr -> option (cell T).
Definition upd (m : mem) (p : ptr) (c : option (cell T)) : mem :=
  fun q => if ptr_eqb p q then c else m q.
Definition copy_sem (l : list (ptr * ptr)) (m : mem) : mem :=
  fold_left (fun m ds => upd m (fst ds) (m (snd ds))) l m.

Definition minit (m : mem) (p : ptr) : Prop := exists v, m p = Some (Some v).

Lemma copy_sem_ext l : forall m m', (forall q, m q = m' q) -> forall q, copy_sem l m q = copy_sem l m' q.
Proof.
  unfold copy_sem. induction l as [|[d s] l IH]; intros m m' H q; simpl; auto.
  apply IH. intros q'. unfold upd. simpl. destruct (ptr_eqb d q'); auto.
Qed.
Lemma copy_sem_other l : forall m q, ~ In q (map fst l) -> copy_sem l m q = m q.
Proof.
  unfold copy_sem. induction l as [|[d s] l IH]; intros m q H; simpl in *; auto.
  rewrite IH by tauto. unfold upd; simpl. destruct (ptr_eqb d q) eqn:E; auto.
  apply ptr_eqb_eq in E. tauto.
Qed.
Lemma copy_sem_init l : forall m q, minit m q -> (forall d s, In (d, s) l -> minit m s) ->
  minit (copy_sem l m) q.
Proof.
  unfold copy_sem. induction l as [|[d s] l IH]; intros m q Hq H; simpl in *; auto.
  assert (P : forall p, minit m p -> minit (upd m d (m s)) p).
  { intros p [v Hv]. unfold minit, upd. destruct (ptr_eqb d p); eauto. apply (H d s); auto. }
  apply IH; auto. intros d' s' Hi. apply P. eapply H; eauto.
Qed.
(** no destination is also a source: every destination receives the old value
    of its (last) source *)
Lemma copy_sem_disjoint l : forall m,
  NoDup (map fst l) -> (forall d s, In (d, s) l -> ~ In s (map fst l) \/ s = d) ->
  forall d s, In (d, s) l -> copy_sem l m d = m s.
Proof.
  induction l as [|[d0 s0] l IH]; intros m Hn Hd d s Hi; simpl in *; [tauto|].
  inversion Hn as [|x y Hx Hn']; subst.
  change (copy_sem ((d0, s0) :: l) m) with (copy_sem l (upd m d0 (m s0))).
  destruct Hi as [E|Hi].
  - inversion E; subst. rewrite copy_sem_other by auto. unfold upd. rewrite ptr_eqb_refl. auto.
  - rewrite (IH (upd m d0 (m s0)) Hn') with (s := s); auto.
    + unfold upd. destruct (ptr_eqb d0 s) eqn:E; auto. apply ptr_eqb_eq in E. subst s.
      destruct (Hd d d0 (or_intror Hi)) as [H|H]; [tauto|]. subst d0.
      exfalso. apply Hx. apply in_map_iff. exists (d, d). auto.
    + intros d1 s1 H1. destruct (Hd d1 s1 (or_intror H1)) as [H|H]; auto.
Qed.

Lemma copy_cells_done l : forall h f,
  (forall d s, In (d, s) l -> init h d /\ init h s) ->
  (match f with None => True | Some k => (length l <= k)%nat end) ->
  exists h', copy_cells l (World h f) = Done tt (World h' (option_map (fun k => k - length l)%nat f)) /\
    same_frame h h' /\ (forall q, hcell h' q = copy_sem l (hcell h) q) /\
    (forall b, (forall d s, In (d, s) l -> p_blk d <> b) -> nth_error h' b = nth_error h b).
Proof.
  induction l as [|[d s] l IH]; intros h f Hi Hf.
  - exists h. simpl. split.
    + unfold ret. destruct f; simpl; rewrite ?Nat.sub_0_r; auto.
    + split; [apply same_frame_refl|]. auto.
  - destruct (Hi d s (or_introl eq_refl)) as [[vd Hd] [vs Hs]].
    simpl copy_cells. unfold elem_assign. rewrite bind_assoc. unfold bind at 1, load.
    cbn [w_heap]. rewrite (proj2 (hread_init _ _ _) Hs). unfold lift.
    rewrite bind_assoc.
    destruct (hset_spec h d (Some vs) _ Hd) as (h1 & E1 & F1 & C1 & B1).
    assert (St : forall g, store d vs (World h g) = Done tt (World h1 g)).
    { intros g. unfold store, hwrite. cbn [w_heap w_fuse]. rewrite Hd, E1. auto. }
    assert (Step : forall g, (match g with None => True | Some k => (length l <= k)%nat end) ->
       exists h', copy_cells l (World h1 g) = Done tt (World h' (option_map (fun k => k - length l)%nat g)) /\
       same_frame h h' /\ (forall q, hcell h' q = copy_sem ((d, s) :: l) (hcell h) q) /\
       (forall b, (forall d0 s0, In (d0, s0) ((d, s) :: l) -> p_blk d0 <> b) -> nth_error h' b = nth_error h b)).
    { intros g Hg. destruct (IH h1 g) as (h' & E & F & C & B); auto.
      - intros d0 s0 H0. assert (P : forall p, init h p -> init h1 p).
        { intros p [v Hv]. unfold init. rewrite C1. destruct (ptr_eqb d p); eauto. }
        destruct (Hi d0 s0 (or_intror H0)); auto.
      - exists h'. split; auto. split; [eapply same_frame_trans; eauto|]. split.
        + intros q. rewrite C. change (copy_sem ((d, s) :: l) (hcell h)) with (copy_sem l (upd (hcell h) d (hcell h s))).
          apply copy_sem_ext. intros q'. rewrite C1, Hs. reflexivity.
        + intros b Hb. rewrite B; [apply B1|].
          * intros E0. apply (Hb d s); [left; auto|auto].
          * intros d0 s0 H0. apply (Hb d0 s0). right; auto. }
    destruct f as [k|].
    + simpl length in Hf. destruct k as [|k]; [lia|].
      unfold bind at 1, tick. cbn [w_fuse w_heap]. unfold bind at 1. rewrite St.
      destruct (Step (Some k)) as (h' & E & R); [lia|]. exists h'. split; auto.
    + unfold bind at 1, tick. cbn [w_fuse w_heap]. unfold bind at 1. rewrite St.
      destruct (Step None) as (h' & E & R); auto. exists h'. split; auto.
Qed.

(** with an exception: some prefix of the copies has been done *)
Lemma copy_cells_thrown l : forall h k,
  (forall d s, In (d, s) l -> init h d /\ init h s) -> (k < length l)%nat ->
  exists h', copy_cells l (World h (Some k)) = Thrown (World h' None) /\
    same_frame h h' /\ (forall q, hcell h' q = copy_sem (firstn k l) (hcell h) q) /\
    (forall b, (forall d s, In (d, s) l -> p_blk d <> b) -> nth_error h' b = nth_error h b).
Proof.
  intros h k Hi Hk. rewrite <- (firstn_skipn k l) in Hi |- *.
  rewrite copy_cells_app.
  destruct (copy_cells_done (firstn k l) h (Some k)) as (h' & E & F & C & B).
  { intros d s H. apply Hi. apply in_or_app; auto. }
  { rewrite firstn_length. lia. }
  unfold bind. rewrite E. cbn [option_map]. rewrite firstn_length, Nat.min_l, Nat.sub_diag by lia.
  destruct (skipn k l) as [|[d s] r] eqn:Es.
  { pose proof (skipn_length k l). rewrite Es in H. simpl in H. lia. }
  destruct (Hi d s) as [[vd Hd] [vs Hs]]; [apply in_or_app; right; left; auto|].
  assert (Hs' : init h' s).
  { unfold init. rewrite C. destruct (copy_sem_init (firstn k l) (hcell h) s) as [v Hv]; eauto.
    - exists vs; auto.
    - intros d0 s0 H0. destruct (Hi d0 s0); [apply in_or_app; auto|auto]. }
  destruct Hs' as [v Hv].
  exists h'. split; [|split; [auto|split]].
  - simpl copy_cells. unfold elem_assign. unfold bind, load, lift. cbn [w_heap].
    rewrite (proj2 (hread_init _ _ _) Hv). unfold tick. cbn [w_fuse w_heap]. reflexivity.
  - intros q. rewrite C. rewrite firstn_app, firstn_firstn, Nat.min_id, firstn_length, Nat.min_l, Nat.sub_diag by lia.
    rewrite app_nil_r. auto.
  - intros b Hb. apply B. intros d0 s0 H0. apply (Hb d0 s0). apply in_or_app; auto.
Qed.

(** copying every cell onto itself changes nothing *)
Lemma copy_cells_id l h : (forall p, In p l -> init h p) ->
  copy_cells (map (fun p => (p, p)) l) (World h None) = Done tt (World h None).
Proof.
  induction l as [|p l IH]; intros Hi; auto. simpl.
  destruct (Hi p (or_introl eq_refl)) as [v Hv].
  unfold bind at 1, elem_assign, bind, load, lift. cbn [w_heap].
  rewrite (proj2 (hread_init _ _ _) Hv). unfold tick, store, hwrite. cbn [w_fuse w_heap].
  rewrite Hv, (hset_same _ _ _ Hv). apply IH. intros; apply Hi; right; auto.
Qed.

End MemoryProofs.
