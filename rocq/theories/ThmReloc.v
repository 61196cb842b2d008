(** ThmReloc.v -- C55: no program can observe where its storage lies. *)

From Coq Require Import Lia.
From Verif Require Import Base StorageOrder Ranges Layout Access Objects Memory Ops MultiArray History
  Facts MemoryProofs RelocSpec RelocProofs.

(** ** relocation composes *)
Lemma ptr_moved_comp R S p q r :
  ptr_moved R p q -> ptr_moved S q r -> ptr_moved (fun a c => exists b, R a b /\ S b c) p r.
Proof. intros [A B] [C D]. split; [eauto|congruence]. Qed.
Lemma cref_moved_comp R S p q r :
  cref_moved R p q -> cref_moved S q r -> cref_moved (fun a c => exists b, R a b /\ S b c) p r.
Proof. intros [] []. constructor; try congruence. eapply ptr_moved_comp; eauto. Qed.
Lemma view_moved_comp R S p q r :
  view_moved R p q -> view_moved S q r -> view_moved (fun a c => exists b, R a b /\ S b c) p r.
Proof. intros [] []. constructor; try congruence. eapply ptr_moved_comp; eauto. Qed.
Lemma ma_moved_comp R S p q r :
  ma_moved R p q -> ma_moved S q r -> ma_moved (fun a c => exists b, R a b /\ S b c) p r.
Proof. intros [] []. constructor; try congruence. eapply cref_moved_comp; eauto. eapply ptr_moved_comp; eauto. Qed.
Lemma forall2_comp {A} (P Q W : A -> A -> Prop) :
  (forall a b c, P a b -> Q b c -> W a c) -> forall l m r, Forall2 P l m -> Forall2 Q m r -> Forall2 W l r.
Proof.
  intros H l m r L. revert r. induction L as [|x y l m X L IH]; intros r K; inversion K; subst; constructor; eauto.
Qed.
Lemma env_moved_comp R S p q r :
  env_moved R p q -> env_moved S q r -> env_moved (fun a c => exists b, R a b /\ S b c) p r.
Proof.
  intros [A B] [C D]. constructor.
  - apply (forall2_comp (var_moved R) (var_moved S) _) with (m := e_vars q); auto.
    intros a b c X Y. destruct X as [|x y X]; inversion Y; subst; constructor. eapply ma_moved_comp; eauto.
  - apply (forall2_comp (handle_moved R) (handle_moved S) _) with (m := e_handles q); auto.
    intros a b c X Y. destruct X as [x y X|x y X]; inversion Y; subst; constructor;
      [eapply view_moved_comp|eapply cref_moved_comp]; eauto.
Qed.
Lemma embeds_comp {T} R S (h1 h2 h3 : heap T) :
  embeds R h1 h2 -> embeds S h2 h3 -> embeds (fun a c => exists b, R a b /\ S b c) h1 h3.
Proof.
  intros E F. constructor.
  - intros a c (b & P & Q). eapply emb_known; eauto.
  - intros a c k (b & P & Q) K. apply (emb_copy _ _ _ F b c k Q). apply (emb_copy _ _ _ E a b k P K).
  - intros a x y (b & P & Q) (b2 & P2 & Q2) L. pose proof (emb_one_place _ _ _ E a b b2 P P2 L). subst b2.
    apply (emb_one_place _ _ _ F b x y Q Q2). apply (place_live _ _ _ _ _ E P L).
  - intros a a2 x (b & P & Q) (b2 & P2 & Q2) L L2.
    pose proof (emb_apart _ _ _ F b b2 x Q Q2 (place_live _ _ _ _ _ E P L) (place_live _ _ _ _ _ E P2 L2)). subst b2.
    apply (emb_apart _ _ _ E a a2 b P P2 L L2).
Qed.
Lemma relocated_trans {T} en1 (h1 : heap T) en2 h2 en3 h3 :
  relocated en1 h1 en2 h2 -> relocated en2 h2 en3 h3 -> relocated en1 h1 en3 h3.
Proof.
  intros (R & E & M) (S & F & N). eexists. split; [eapply embeds_comp|eapply env_moved_comp]; eauto.
Qed.

(** C55: wherever the storage of a program state lies -- moved, compacted, at
    identities used before, among other blocks -- a call gives the same result:
    the same value, the same exception or the same failed assertion, and again
    the same state up to where it lies. *)
Theorem c55_place_does_not_matter :
  forall (T : Type) (dflt : T) (eqT ltT : T -> T -> bool) (chk : bool)
         (en en' : env) (h h' : heap T) (c : command) (f : option nat),
  relocated en h en' h' ->
  match exec dflt eqT ltT chk en c (World h f) with
  | Done (en1, o) w => exists en1' h1',
      exec dflt eqT ltT chk en' c (World h' f) = Done (en1', o) (World h1' (w_fuse w)) /\
      relocated en1 (w_heap w) en1' h1'
  | Thrown w => exists h1',
      exec dflt eqT ltT chk en' c (World h' f) = Thrown (World h1' (w_fuse w)) /\
      relocated en (w_heap w) en' h1'
  | Aborted w => exists h1',
      exec dflt eqT ltT chk en' c (World h' f) = Aborted (World h1' (w_fuse w)) /\
      relocated en (w_heap w) en' h1'
  | _ => True
  end.
Proof.
  intros T dflt eqT ltT chk en en' h h' c f (R & E & M).
  pose proof (sim_exec dflt eqT ltT R chk en en' c M h h' f E) as H.
  destruct (exec dflt eqT ltT chk en c (World h f)) as [[en1 o] w|w|w| |]; auto.
  - destruct H as ([en1' o'] & h1' & R' & H & L & [X Y]). simpl in *. subst o'. exists en1', h1'. split; [exact H|].
    exists R'. split; [apply L|exact X].
  - destruct H as (h1' & R' & H & L). exists h1'. split; [exact H|]. exists R'. split; [apply L|].
    exact (env_moved_sub _ _ _ _ (lt_incl _ _ _ _ _ _ L) M).
  - destruct H as (h1' & R' & H & L). exists h1'. split; [exact H|]. exists R'. split; [apply L|].
    exact (env_moved_sub _ _ _ _ (lt_incl _ _ _ _ _ _ L) M).
Qed.

Lemma moving_same {T} dflt eqT ltT chk en' (h' : heap T) p os' :
  moving_run dflt eqT ltT chk en' h' p os' ->
  forall en h en2 os w, relocated en h en' h' ->
  run_catching dflt eqT ltT chk en p h = Done (en2, os) w -> os' = os.
Proof.
  induction 1 as [en' h'|en' h' en2' h2' p os' RL MV IH|en' h' c f p en1' o' w' os' EX MV IH|en' h' c f p w' os' EX MV IH];
    intros en h en2 os w RR RUN.
  - simpl in RUN. now injection RUN as <- <- <-.
  - eapply IH; [|exact RUN]. eapply relocated_trans; eauto.
  - cbn [run_catching] in RUN.
    pose proof (c55_place_does_not_matter T dflt eqT ltT chk en en' h h' c f RR) as H.
    destruct (exec dflt eqT ltT chk en c (World h f)) as [[en1 o] w1|w1|w1| |]; try discriminate.
    + destruct H as (a & b & H & K). rewrite EX in H. injection H as <- <- ->.
      destruct (run_catching dflt eqT ltT chk en1 p (w_heap w1)) as [[en3 os3] w3|w3|w3| |] eqn:E3; try discriminate.
      injection RUN as <- <- <-. f_equal. eapply IH; [|exact E3]. exact K.
    + destruct H as (b & H & K). rewrite EX in H. discriminate.
  - cbn [run_catching] in RUN.
    pose proof (c55_place_does_not_matter T dflt eqT ltT chk en en' h h' c f RR) as H.
    destruct (exec dflt eqT ltT chk en c (World h f)) as [[en1 o] w1|w1|w1| |]; try discriminate.
    + destruct H as (a & b & H & K). rewrite EX in H. discriminate.
    + destruct H as (b & H & K). rewrite EX in H. injection H as ->.
      destruct (run_catching dflt eqT ltT chk en p (w_heap w1)) as [[en3 os3] w3|w3|w3| |] eqn:E3; try discriminate.
      injection RUN as <- <- <-. f_equal. eapply IH; [|exact E3]. exact K.
Qed.
Lemma live_relocated_refl {T} (en : env) (h : heap T) R : embeds R h h -> env_moved R en en -> relocated en h en h.
Proof. intros. exists R. auto. Qed.

(** C55: a program whose storage is moved at will between its calls (compaction,
    reuse of returned blocks' identities, foreign blocks coming and going) yields
    exactly the outputs it yields when nothing is ever moved. *)
Theorem c55_moving_storage_is_unobservable :
  forall (T : Type) (dflt : T) (eqT ltT : T -> T -> bool) (chk : bool)
         (p : list (command * option nat)) (en2 : env) (os os' : list (option output)) (w : world T) (h0 : heap T),
  run_catching dflt eqT ltT chk (Env [] []) p [] = Done (en2, os) w ->
  moving_run dflt eqT ltT chk (Env [] []) h0 p os' ->
  os' = os.
Proof.
  intros T dflt eqT ltT chk p en2 os os' w h0 RUN MV. eapply moving_same; [exact MV| |exact RUN].
  exists (fun _ _ => False). split; constructor; simpl; auto; contradiction.
Qed.

(** C55: and such a machine never gets stuck where the unmoved program does not. *)
Theorem c55_moving_storage_never_stuck :
  forall (T : Type) (dflt : T) (eqT ltT : T -> T -> bool) (chk : bool)
         (p : list (command * option nat)) (en en' en2 : env) (h h' : heap T) (os : list (option output)) (w : world T),
  run_catching dflt eqT ltT chk en p h = Done (en2, os) w ->
  relocated en h en' h' ->
  moving_run dflt eqT ltT chk en' h' p os /\
  exists en2' h2', run_catching dflt eqT ltT chk en' p h' = Done (en2', os) (World h2' (w_fuse w)) /\
                   relocated en2 (w_heap w) en2' h2'.
Proof.
  intros T dflt eqT ltT chk p. induction p as [|[c f] p IH]; intros en en' en2 h h' os w RUN RR.
  - simpl in RUN. injection RUN as <- <- <-. split; [constructor|]. exists en', h'. auto.
  - cbn [run_catching] in *.
    pose proof (c55_place_does_not_matter T dflt eqT ltT chk en en' h h' c f RR) as H.
    destruct (exec dflt eqT ltT chk en c (World h f)) as [[en1 o] w1|w1|w1| |]; try discriminate.
    + destruct H as (a & b & H & K).
      destruct (run_catching dflt eqT ltT chk en1 p (w_heap w1)) as [[en3 os3] w3|w3|w3| |] eqn:E3; try discriminate.
      injection RUN as <- <- <-. destruct (IH _ _ _ _ _ _ _ E3 K) as (MV & en2' & h2' & E4 & R4).
      split; [eapply moving_step; eauto|]. exists en2', h2'. rewrite H. cbn [w_heap]. rewrite E4. auto.
    + destruct H as (b & H & K).
      destruct (run_catching dflt eqT ltT chk en p (w_heap w1)) as [[en3 os3] w3|w3|w3| |] eqn:E3; try discriminate.
      injection RUN as <- <- <-. destruct (IH _ _ _ _ _ _ _ E3 K) as (MV & en2' & h2' & E4 & R4).
      split; [eapply moving_throw; eauto|]. exists en2', h2'. rewrite H. cbn [w_heap]. rewrite E4. auto.
Qed.

(** ** parts side by side *)
Lemma part_cons_same {A} i (x : A) l : part i ((i, x) :: l) = x :: part i l.
Proof. unfold part. simpl. now rewrite Nat.eqb_refl. Qed.
Lemma part_cons_other {A} i j (x : A) l : j <> i -> part i ((j, x) :: l) = part i l.
Proof. intros H. unfold part. simpl. destruct (Nat.eqb_spec j i); [contradiction|reflexivity]. Qed.

Definition put {A} (f : nat -> A) (i : nat) (x : A) : nat -> A := fun j => if Nat.eqb j i then x else f j.
Lemma put_same {A} (f : nat -> A) i x : put f i x i = x.
Proof. unfold put. now rewrite Nat.eqb_refl. Qed.
Lemma put_other {A} (f : nat -> A) i j x : j <> i -> put f i x j = f j.
Proof. intros H. unfold put. destruct (Nat.eqb_spec j i); [contradiction|reflexivity]. Qed.

(** one call by part [i] *)
Lemma side_step {T} n own_env own_heap ens (h : heap T) i en R R' en1 g h' en1' :
  (forall j ej, nth_error ens j = Some ej -> embeds (R j) (own_heap j) h /\ env_moved (R j) (own_env j) ej) ->
  length ens = n ->
  (forall i j a b x, (i < n)%nat -> (j < n)%nat -> R i a x -> R j b x ->
       live_block (own_heap i) a -> live_block (own_heap j) b -> i = j) ->
  (forall x, live_block h x -> exists i a, (i < n)%nat /\ R i a x /\ live_block (own_heap i) a) ->
  nth_error ens i = Some en ->
  later (R i) (own_heap i) h R' g h' -> env_moved R' en1 en1' ->
  side_by_side n (put own_env i en1) (put own_heap i g) (set_nth i en1' ens) h'.
Proof.
  intros EM LN AP CV NI L M1. assert (IL : (i < n)%nat) by (subst n; apply nth_error_Some; congruence).
  exists (put R i R'). split; [now rewrite length_set_nth|]. split; [|split].
  - intros j ej NJ. destruct (Nat.eq_dec j i) as [->|N].
    + rewrite nth_error_set_nth_eq in NJ by lia. injection NJ as <-. rewrite !put_same. split; [apply L|exact M1].
    + rewrite nth_error_set_nth_ne in NJ by auto. destruct (EM j ej NJ) as [E F].
      rewrite !put_other by auto. split; [|exact F]. assert (JL : (j < n)%nat) by (subst n; apply nth_error_Some; congruence).
      constructor; try apply E. intros b b' k P Q.
      pose proof (emb_copy _ _ _ E _ _ _ P Q) as K. assert (LB : live_block h b') by (unfold live_block; congruence).
      rewrite (lt_frame _ _ _ _ _ _ L); [exact K|now apply live_lt|].
      intros a Pa La. apply N. apply (AP j i b a b' JL IL P Pa); [unfold live_block; congruence|exact La].
  - assert (CL : forall a x, R' a x -> live_block g a -> (R i a x /\ live_block (own_heap i) a) \/ (length h <= x)%nat).
    { intros a x P Q. destruct (Nat.lt_ge_cases a (length (own_heap i))) as [W|W].
      - left. split; [eapply lt_old; eauto|eapply lt_dead1; eauto].
      - right. eapply lt_new; eauto. }
    assert (OL : forall j b x, (j < n)%nat -> R j b x -> live_block (own_heap j) b -> (x < length h)%nat).
    { intros j b x JL P Q. destruct (nth_error ens j) as [ej|] eqn:NJ.
      - destruct (EM j ej NJ) as [E _]. eapply live_lt, place_live; eauto.
      - apply nth_error_None in NJ. lia. }
    intros j k a b x JL KL. unfold put. destruct (Nat.eqb_spec j i) as [->|N], (Nat.eqb_spec k i) as [->|N2]; auto.
    + intros P Q LA LB. destruct (CL a x P LA) as [[P2 L2]|G].
      * eapply (AP i k); eauto.
      * pose proof (OL k b x KL Q LB). lia.
    + intros P Q LA LB. destruct (CL b x Q LB) as [[P2 L2]|G].
      * eapply (AP j i); eauto.
      * pose proof (OL j a x JL P LA). lia.
    + intros. eapply (AP j k); eauto.
  - intros x LX. destruct (Nat.lt_ge_cases x (length h)) as [W|W].
    + destruct (CV x (lt_dead2 _ _ _ _ _ _ L x W LX)) as (j & a & JL & P & Q).
      exists j, a. split; [exact JL|]. unfold put. destruct (Nat.eqb_spec j i) as [->|N]; [|auto].
      split; [eapply lt_incl; eauto|]. destruct (live_dec g a) as [Y|Y]; [exact Y|].
      now destruct (lt_dies _ _ _ _ _ _ L a x P Q Y).
    + destruct (lt_fresh _ _ _ _ _ _ L x W LX) as (a & P & Q). exists i, a. rewrite !put_same. auto.
Qed.

Lemma set_nth_self {A} (l : list A) i x : nth_error l i = Some x -> set_nth i x l = l.
Proof.
  revert i. induction l as [|y l IH]; intros [|i] H; simpl in *; try discriminate.
  - now injection H as ->.
  - now rewrite IH.
Qed.

Lemma together_general {T} dflt eqT ltT chk n : forall sched own_env own_heap ens (h : heap T),
  Forall (fun e => (fst e < n)%nat) sched ->
  side_by_side n own_env own_heap ens h ->
  (forall i, (i < n)%nat -> exists en os w,
     run_catching dflt eqT ltT chk (own_env i) (part i sched) (own_heap i) = Done (en, os) w) ->
  exists ens2 os w own_env2 own_heap2,
    run_together dflt eqT ltT chk ens sched h = Done (ens2, os) w /\
    side_by_side n own_env2 own_heap2 ens2 (w_heap w) /\
    forall i, (i < n)%nat ->
      run_catching dflt eqT ltT chk (own_env i) (part i sched) (own_heap i)
        = Done (own_env2 i, part i os) (World (own_heap2 i) None).
Proof.
  induction sched as [|[i [c f]] sched IH]; intros own_env own_heap ens h LE SB RUN.
  - exists ens, [], (World h None), own_env, own_heap. split; [reflexivity|]. split; [exact SB|].
    intros i L. reflexivity.
  - inversion LE as [|? ? LI LE']; subst. simpl in LI.
    destruct SB as (R & LN & EM & AP & CV).
    destruct (nth_error ens i) as [en|] eqn:NI; [|apply nth_error_None in NI; lia].
    destruct (EM i en NI) as [E M].
    pose proof (sim_exec dflt eqT ltT (R i) chk (own_env i) en c M (own_heap i) h f E) as H.
    destruct (RUN i LI) as (en2 & os2 & w2 & RI). rewrite part_cons_same in RI. cbn [run_catching] in RI.
    cbn [run_together]. rewrite NI.
    destruct (exec dflt eqT ltT chk (own_env i) c (World (own_heap i) f)) as [[en1 o] w1|w1|w1| |] eqn:EX; try discriminate.
    + destruct H as ([en1' o'] & h' & R' & EX2 & L & [M1 O1]). simpl in M1, O1. subst o'.
      pose proof (side_step n own_env own_heap ens h i en R R' en1 (w_heap w1) h' en1' EM LN AP CV NI L M1) as SB2.
      destruct (IH (put own_env i en1) (put own_heap i (w_heap w1)) (set_nth i en1' ens) h' LE' SB2) as
        (ens2 & os & w & oe2 & oh2 & TG & SB3 & SOLO).
      { intros j JL. destruct (Nat.eq_dec j i) as [->|N].
        - rewrite !put_same. destruct (run_catching dflt eqT ltT chk en1 (part i sched) (w_heap w1)) as [[a b] d|d|d| |]; try discriminate. eauto.
        - rewrite !put_other by auto. specialize (RUN j JL). rewrite part_cons_other in RUN by auto. exact RUN. }
      rewrite EX2. cbn [w_heap]. rewrite TG. exists ens2, ((i, Some o) :: os), w, oe2, oh2.
      split; [reflexivity|]. split; [exact SB3|]. intros j JL. specialize (SOLO j JL).
      destruct (Nat.eq_dec j i) as [->|N].
      * rewrite !put_same in SOLO. rewrite !part_cons_same. cbn [run_catching]. rewrite EX, SOLO. reflexivity.
      * rewrite !put_other in SOLO by auto. rewrite !part_cons_other by auto. exact SOLO.
    + destruct H as (h' & R' & EX2 & L).
      assert (M1 : env_moved R' (own_env i) en) by (exact (env_moved_sub _ _ _ _ (lt_incl _ _ _ _ _ _ L) M)).
      pose proof (side_step n own_env own_heap ens h i en R R' (own_env i) (w_heap w1) h' en EM LN AP CV NI L M1) as SB2.
      rewrite (set_nth_self _ _ _ NI) in SB2.
      destruct (IH (put own_env i (own_env i)) (put own_heap i (w_heap w1)) ens h' LE' SB2) as
        (ens2 & os & w & oe2 & oh2 & TG & SB3 & SOLO).
      { intros j JL. destruct (Nat.eq_dec j i) as [->|N].
        - rewrite !put_same. destruct (run_catching dflt eqT ltT chk (own_env i) (part i sched) (w_heap w1)) as [[a b] d|d|d| |]; try discriminate. eauto.
        - rewrite !put_other by auto. specialize (RUN j JL). rewrite part_cons_other in RUN by auto. exact RUN. }
      rewrite EX2. cbn [w_heap]. rewrite TG. exists ens2, ((i, None) :: os), w, oe2, oh2.
      split; [reflexivity|]. split; [exact SB3|]. intros j JL. specialize (SOLO j JL).
      destruct (Nat.eq_dec j i) as [->|N].
      * rewrite !put_same in SOLO. rewrite !part_cons_same. cbn [run_catching]. rewrite EX, SOLO. reflexivity.
      * rewrite !put_other in SOLO by auto. rewrite !part_cons_other by auto. exact SOLO.
Qed.

Lemma nth_error_repeat_some {A} (x y : A) n i : nth_error (repeat x n) i = Some y -> y = x.
Proof. revert i. induction n as [|n IH]; intros [|i]; simpl; try discriminate; [congruence|apply IH]. Qed.

(** C55: independent parts of a program -- each with arrays, views and refs of its
    own, all storage in one heap -- running interleaved in any order, with any
    exceptions: if each part alone is fine, then together they are fine, each part
    sees exactly the outputs it sees alone, and at the end the shared heap is the
    disjoint union of the storage the parts would have alone: nothing shared,
    nothing lost, nothing else alive. *)
Theorem c55_independent_parts_do_not_interfere :
  forall (T : Type) (dflt : T) (eqT ltT : T -> T -> bool) (chk : bool)
         (n : nat) (sched : list (nat * (command * option nat))),
  Forall (fun e => (fst e < n)%nat) sched ->
  (forall i, (i < n)%nat -> exists en os w,
     run_catching dflt eqT ltT chk (Env [] []) (part i sched) [] = Done (en, os) w) ->
  exists ens os w own_env own_heap,
    run_together dflt eqT ltT chk (repeat (Env [] []) n) sched [] = Done (ens, os) w /\
    (forall i, (i < n)%nat ->
       run_catching dflt eqT ltT chk (Env [] []) (part i sched) []
         = Done (own_env i, part i os) (World (own_heap i) None)) /\
    side_by_side n own_env own_heap ens (w_heap w).
Proof.
  intros T dflt eqT ltT chk n sched LE RUN.
  destruct (together_general dflt eqT ltT chk n sched (fun _ => Env [] []) (fun _ => []) (repeat (Env [] []) n) [] LE)
    as (ens & os & w & oe & oh & A & B & C); [|exact RUN|].
  - exists (fun _ _ _ => False). split; [apply repeat_length|]. split; [|split].
    + intros i en H. apply nth_error_repeat_some in H as ->. split; constructor; simpl; auto; contradiction.
    + intros; contradiction.
    + intros x H. apply live_lt in H. simpl in H. lia.
  - exists ens, os, w, oe, oh. auto.
Qed.

(** C55: a program run next to any storage of others leaves every block of that
    storage exactly as it was. *)
Theorem c55_foreign_storage_is_untouched :
  forall (T : Type) (dflt : T) (eqT ltT : T -> T -> bool) (chk : bool)
         (p : list (command * option nat)) (en2 : env) (os : list (option output)) (w : world T) (h0 : heap T),
  run_catching dflt eqT ltT chk (Env [] []) p [] = Done (en2, os) w ->
  exists en2' h2',
    run_catching dflt eqT ltT chk (Env [] []) p h0 = Done (en2', os) (World h2' (w_fuse w)) /\
    relocated en2 (w_heap w) en2' h2' /\
    forall b, (b < length h0)%nat -> hblock h2' b = hblock h0 b.
Proof.
  intros T dflt eqT ltT chk p en2 os w h0.
  assert (G : forall p en en' R h h' en2 os w, embeds R h h' -> env_moved R en en' ->
    run_catching dflt eqT ltT chk en p h = Done (en2, os) w ->
    exists en2' h2' R', run_catching dflt eqT ltT chk en' p h' = Done (en2', os) (World h2' (w_fuse w)) /\
      later R h h' R' (w_heap w) h2' /\ env_moved R' en2 en2').
  { clear. intros p. induction p as [|[c f] p IH]; intros en en' R h h' en2 os w E M RUN.
    - simpl in RUN. injection RUN as <- <- <-. exists en', h', R. split; [reflexivity|]. split; [now apply later_refl|exact M].
    - cbn [run_catching] in *. pose proof (sim_exec dflt eqT ltT R chk en en' c M h h' f E) as H.
      destruct (exec dflt eqT ltT chk en c (World h f)) as [[en1 o] w1|w1|w1| |]; try discriminate.
      + destruct H as ([a o'] & b & R1 & -> & L & [X Y]). simpl in X, Y. subst o'.  cbn [w_heap].
        destruct (run_catching dflt eqT ltT chk en1 p (w_heap w1)) as [[en3 os3] w3|w3|w3| |] eqn:E3; try discriminate.
        injection RUN as <- <- <-.
        destruct (IH _ _ _ _ _ _ _ _ (lt_emb _ _ _ _ _ _ L) X E3) as (en2' & h2' & R2 & -> & L2 & X2).
        exists en2', h2', R2. split; [reflexivity|]. split; [eapply later_trans; eauto|exact X2].
      + destruct H as (b & R1 & -> & L). cbn [w_heap].
        destruct (run_catching dflt eqT ltT chk en p (w_heap w1)) as [[en3 os3] w3|w3|w3| |] eqn:E3; try discriminate.
        injection RUN as <- <- <-.
        destruct (IH _ _ _ _ _ _ _ _ (lt_emb _ _ _ _ _ _ L) (env_moved_sub _ _ _ _ (lt_incl _ _ _ _ _ _ L) M) E3)
          as (en2' & h2' & R2 & -> & L2 & X2).
        exists en2', h2', R2. split; [reflexivity|]. split; [eapply later_trans; eauto|exact X2]. }
  intros RUN. destruct (G p (Env [] []) (Env [] []) (fun _ _ => False) [] h0 en2 os w) as (en2' & h2' & R' & A & L & X).
  - constructor; intros; contradiction.
  - constructor; simpl; constructor.
  - exact RUN.
  - exists en2', h2'. split; [exact A|]. split; [exists R'; split; [apply L|exact X]|].
    intros b B. apply (lt_frame _ _ _ _ _ _ L); auto.
Qed.

(** The hypotheses are met by a real program: two parts that construct, fill,
    resize (the second one with an exception inside the resize), read and destroy
    arrays, interleaved. *)
Definition ex_so : storage_order := SO [1; 0]%nat [true; true].
Definition ex_parts : list (nat * (@command Z * option nat)) :=
  [ (0%nat, (NewList [2; 3] ex_so 7%nat, None));
    (1%nat, (NewList [2; 2] ex_so 7%nat, None));
    (0%nat, (Fill 0%nat [1; 2; 3; 4; 5; 6], None));
    (1%nat, (Fill 0%nat [10; 20; 30; 40], None));
    (1%nat, (ResizeList 0%nat [3; 3], Some 5%nat));
    (0%nat, (ResizeList 0%nat [3; 2], None));
    (1%nat, (Get (Var 0%nat) [1; 1], None));
    (0%nat, (Get (Var 0%nat) [1; 1], None));
    (0%nat, (Destroy 0%nat, None));
    (1%nat, (ResizeList 0%nat [1; 1], None));
    (1%nat, (Get (Var 0%nat) [0; 0], None)) ].
Example ex_c55 :
  Forall (fun e => (fst e < 2)%nat) ex_parts /\
  (forall i, (i < 2)%nat -> exists en os w,
     run_catching 0 Z.eqb Z.ltb true (Env [] []) (part i ex_parts) [] = Done (en, os) w) /\
  exists ens w, run_together 0 Z.eqb Z.ltb true [Env [] []; Env [] []] ex_parts [] =
    Done (ens, [(0%nat, Some ONone); (1%nat, Some ONone); (0%nat, Some ONone); (1%nat, Some ONone);
                (1%nat, None); (0%nat, Some ONone); (1%nat, Some (OVal 40)); (0%nat, Some (OVal 5));
                (0%nat, Some ONone); (1%nat, Some ONone); (1%nat, Some (OVal 10))]) w.
Proof.
  split; [repeat (constructor; [simpl; lia|]); constructor|]. split.
  - intros [|[|i]] H; [| |lia]; vm_compute; eauto.
  - vm_compute. eauto.
Qed.
