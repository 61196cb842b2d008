(** ThmOpaque.v -- C61: the library treats elements as opaque values: it default
    constructs them, moves them around, and hands them to the element operations
    of the program, and nothing else. *)

From Coq Require Import Lia.
From Verif Require Import Base StorageOrder Access Objects Memory Ops MultiArray History Facts OpaqueSpec OpaqueProofs.

(** ** Related elements give related runs *)

(** A program, and the corresponding program over another element type: if the
    default elements are related and the element comparisons agree on related
    elements, the two runs end the same way (also when an operation throws at
    any point), with the same objects, related answers and related memories. *)
Theorem c61_related_elements :
  forall (T U : Type) (R : T -> U -> Prop) (dT : T) (dU : U)
         (eqT ltT : T -> T -> bool) (eqU ltU : U -> U -> bool),
  R dT dU ->
  (forall a b a' b', R a a' -> R b b' -> eqT a b = eqU a' b') ->
  (forall a b a' b', R a a' -> R b b' -> ltT a b = ltU a' b') ->
  forall chk p q en w v,
  Forall2 (corresponds R) p q -> world_alike R w v ->
  same_way R (results_alike (out_alike R)) (run dT eqT ltT chk en p w) (run dU eqU ltU chk en q v).
Proof. intros T U R dT dU eqT ltT eqU ltU D E L chk p q en w v H W. now apply par_run. Qed.

(** the same for programs that catch exceptions, and for programs that also
    survive failed assertions, each command having its own point of failure *)
Theorem c61_related_catching :
  forall (T U : Type) (R : T -> U -> Prop) (dT : T) (dU : U)
         (eqT ltT : T -> T -> bool) (eqU ltU : U -> U -> bool),
  R dT dU ->
  (forall a b a' b', R a a' -> R b b' -> eqT a b = eqU a' b') ->
  (forall a b a' b', R a a' -> R b b' -> ltT a b = ltU a' b') ->
  forall chk p q en h k,
  Forall2 (fun x y => corresponds R (fst x) (fst y) /\ snd x = snd y) p q -> heap_alike R h k ->
  same_way R (results_alike (maybe_alike R))
    (run_catching dT eqT ltT chk en p h) (run_catching dU eqU ltU chk en q k) /\
  same_way R (results_alike (maybe_alike R))
    (run_handled dT eqT ltT chk en p h) (run_handled dU eqU ltU chk en q k).
Proof. intros T U R dT dU eqT ltT eqU ltU D E L chk p q en h k H W. split; [now apply par_catching|now apply par_handled]. Qed.

(** ** Changing the element type by a function *)

(** if a function f respects the default element, == and <, then a program over
    f's values answers exactly what the original answers, with f applied to the
    elements read; here b corresponds to a when b = f a *)
Theorem c61_relabel :
  forall (T U : Type) (f : T -> U) (dT : T) (eqT ltT : T -> T -> bool) (eqU ltU : U -> U -> bool),
  (forall a b, eqU (f a) (f b) = eqT a b) ->
  (forall a b, ltU (f a) (f b) = ltT a b) ->
  forall chk p q,
  Forall2 (corresponds (fun a b => b = f a)) p q ->
  match run dT eqT ltT chk (Env [] []) p (World [] None), run (f dT) eqU ltU chk (Env [] []) q (World [] None) with
  | Done (en, os) _, Done (en', os') _ => en' = en /\ os' = map (relabel_output f) os
  | Thrown _, Thrown _ | Aborted _, Aborted _ | Undef, Undef | OutOfFuel, OutOfFuel => True
  | _, _ => False
  end.
Proof.
  intros T U f dT eqT ltT eqU ltU E L chk p q H.
  assert (W : world_alike (fun a b => b = f a) (World [] None) (World [] None)) by (split; [constructor|reflexivity]).
  destruct (c61_related_elements T U (fun a b => b = f a) dT (f dT) eqT ltT eqU ltU) with
    (1 := eq_refl (f dT)) (4 := H) (5 := W) (chk := chk) (en := Env [] [])
    as [[en os] [en' os'] w v [X Y] _|?|?| |]; auto.
  - intros a b a' b' -> ->. symmetry. apply E.
  - intros a b a' b' -> ->. symmetry. apply L.
  - simpl in *. split; [auto|]. clear -Y. induction Y as [|o o' os os' P Y IH]; [reflexivity|]. simpl. rewrite IH.
    f_equal. destruct P; simpl; congruence.
Qed.

(** ** What a program does never depends on the elements, unless it compares *)

(** two programs making the same calls with whatever elements (even of different
    types): as long as neither compares arrays, they end the same way, have the
    same objects at the same addresses, and answer the same except for the
    elements read *)
Lemma exec_no_compare {T} (d : T) eqT ltT eqT' ltT' chk en c :
  ~ comparing c -> exec d eqT ltT chk en c = exec d eqT' ltT' chk en c.
Proof. intros H. destruct c; try reflexivity. now destruct H. Qed.
Lemma catching_no_compare {T} (d : T) eqT ltT eqT' ltT' chk p :
  (forall c f, In (c, f) p -> ~ comparing c) ->
  forall en h, run_catching d eqT ltT chk en p h = run_catching d eqT' ltT' chk en p h.
Proof.
  induction p as [|[c f] p IH]; intros H en h; [reflexivity|]. cbn [run_catching].
  rewrite (exec_no_compare d eqT ltT eqT' ltT' chk en c) by (apply (H c f); now left).
  destruct (exec _ _ _ _ _ _ _) as [[e o] w|w|w| |]; try reflexivity;
    rewrite IH by (intros c' f' I'; apply (H c' f'); now right); reflexivity.
Qed.
Lemma corresponds_comparing {T U} (R : T -> U -> Prop) c d : corresponds R c d -> comparing d -> comparing c.
Proof. intros []; simpl; auto. Qed.
Lemma forall2_in_r {A B} (Q : A -> B -> Prop) l m b : Forall2 Q l m -> In b m -> exists a, In a l /\ Q a b.
Proof.
  induction 1 as [|x y l m P H IH]; [intros []|]. intros [<- | I'].
  - exists x. split; [now left|exact P].
  - destruct (IH I') as (a & IN & QQ). exists a. split; [now right|exact QQ].
Qed.
Theorem c61_values_do_not_matter :
  forall (T U : Type) (dT : T) (dU : U) (eqT ltT : T -> T -> bool) (eqU ltU : U -> U -> bool)
         chk (p : list (@command T * option nat)) (q : list (@command U * option nat)) en h k,
  (forall c f, In (c, f) p -> ~ comparing c) ->
  Forall2 (fun x y => corresponds (fun _ _ => True) (fst x) (fst y) /\ snd x = snd y) p q ->
  heap_alike (fun _ _ => True) h k ->
  same_way (fun _ _ => True) (results_alike (maybe_alike (fun _ _ => True)))
    (run_catching dT eqT ltT chk en p h) (run_catching dU eqU ltU chk en q k).
Proof.
  intros T U dT dU eqT ltT eqU ltU chk p q en h k N H W.
  rewrite (catching_no_compare dT eqT ltT (fun _ _ => true) (fun _ _ => true)) by exact N.
  rewrite (catching_no_compare dU eqU ltU (fun _ _ => true) (fun _ _ => true)).
  - now apply par_catching.
  - intros c f I' C. destruct (forall2_in_r _ _ _ _ H I') as ([c' f'] & IN & CO & _). simpl in CO.
    apply (N c' f' IN). eapply corresponds_comparing; eauto.
Qed.

(** ** No element is invented *)

(** a property of elements that holds of the default element and of every element
    the program writes, and that the functions given to for_each preserve, holds
    of every element ever read and of every element in memory, however the
    commands end *)
Lemma brings_self {T} (P : T -> Prop) c : brings P c -> corresponds (fun a b => a = b /\ P a) c c.
Proof.
  assert (F : forall l, Forall P l -> Forall2 (fun a b => a = b /\ P a) l l) by (induction 1; constructor; auto).
  destruct c; simpl; intros H; constructor; auto. intros a b [<- K]. auto.
Qed.
Lemma forall2_diag {A} (Q : A -> A -> Prop) l : (forall n a, nth_error l n = Some a -> Q a a) -> Forall2 Q l l.
Proof.
  induction l as [|a l IH]; intros H; constructor; [apply (H 0%nat); reflexivity|].
  apply IH. intros n b E. now apply (H (S n)).
Qed.
Lemma contains_self {T} (P : T -> Prop) h : contains_only P h -> heap_alike (fun a b => a = b /\ P a) h h.
Proof.
  intros H. apply forall2_diag. intros b [[aid cs]|] E; constructor.
  apply forall2_diag. intros i [v|] C; constructor. split; [reflexivity|].
  apply (H (Ptr b (Z.of_nat i))). unfold hread, hcell, hblock; simpl. rewrite E. simpl.
  destruct (Z.of_nat i <? 0) eqn:L; [apply Z.ltb_lt in L; lia|].
  assert (C2 : @nth_error (cell T) cs i = Some (Some v)) by exact C. now rewrite Nat2Z.id, C2.
Qed.
Lemma self_contains {T} (P : T -> Prop) h k : heap_alike (fun a b => a = b /\ P a) h k -> contains_only P h.
Proof.
  intros H p v. pose proof (alike_read _ _ _ p H) as X. intros E. rewrite E in X.
  destruct (hread k p); simpl in X; [apply X|contradiction..].
Qed.
Definition ends_with {T} (P : T -> Prop) (r : res T (env * list (option (@output T)))) : Prop :=
  match r with
  | Done (_, os) w => contains_only P (w_heap w) /\ forall o, In (Some o) os -> answers_with P o
  | Thrown w | Aborted w => contains_only P (w_heap w)
  | _ => True
  end.
Lemma same_way_ends {T} (P : T -> Prop) r s :
  same_way (fun a b => a = b /\ P a) (results_alike (maybe_alike (fun a b => a = b /\ P a))) r s -> ends_with P r.
Proof.
  intros [[en os] [en' os'] w v [_ Y] [W _]|w v [W _]|w v [W _]| |]; simpl; auto;
    try (exact (self_contains _ _ _ W)).
  split; [exact (self_contains _ _ _ W)|]. simpl in Y. clear -Y. induction Y as [|o o' os os' X Y IH]; [intros o []|].
  intros u [-> | I']; [|now apply IH]. inversion X as [|? ? Z]; subst. destruct Z as [|a b [_ K]| | |]; simpl; auto.
Qed.
Theorem c61_no_value_invented :
  forall (T : Type) (P : T -> Prop) (dflt : T) (eqT ltT : T -> T -> bool) chk p en h,
  P dflt -> contains_only P h -> (forall c f, In (c, f) p -> brings P c) ->
  match run_catching dflt eqT ltT chk en p h with
  | Done (_, os) w => contains_only P (w_heap w) /\ forall o, In (Some o) os -> answers_with P o
  | Thrown w | Aborted w => contains_only P (w_heap w)
  | _ => True
  end /\
  match run_handled dflt eqT ltT chk en p h with
  | Done (_, os) w => contains_only P (w_heap w) /\ forall o, In (Some o) os -> answers_with P o
  | Thrown w | Aborted w => contains_only P (w_heap w)
  | _ => True
  end.
Proof.
  intros T P dflt eqT ltT chk p en h D C B.
  assert (F : Forall2 (fun x y => corresponds (fun a b => a = b /\ P a) (fst x) (fst y) /\ snd x = snd y) p p).
  { apply forall2_diag. intros n [c f] E. split; [|reflexivity]. apply brings_self. apply (B c f).
    eapply nth_error_In; eauto. }
  destruct (c61_related_catching T T (fun a b => a = b /\ P a) dflt dflt eqT ltT eqT ltT) with
    (4 := F) (5 := contains_self _ _ C) (chk := chk) (en := en) as [X Y]; auto.
  - intros a b a' b' [<- _] [<- _]. reflexivity.
  - intros a b a' b' [<- _] [<- _]. reflexivity.
  - split; [exact (same_way_ends _ _ _ X)|exact (same_way_ends _ _ _ Y)].
Qed.

(** ** The hypotheses are met, and needed *)

Definition ex_one {T} (v : T) (g : T -> T) : list (@command T) :=
  [NewList [2; 3] (so_from_c 2) 0; Set_ (Var 0) [1; 2] v; NewCopy 0; ForEach (Var 1) g;
   Compare CLt (Var 0) (Var 1); Get (Var 1) [1; 2]; Ask QShape (Var 1)].
Definition ex_nats := ex_one 5%nat (fun n => n + 1)%nat.
Definition ex_ints := ex_one 5 (fun z => z + 1).
Example ex_c61_corresponds : Forall2 (corresponds (fun a b => b = Z.of_nat a)) ex_nats ex_ints.
Proof. repeat (constructor; try reflexivity). intros a b ->. lia. Qed.
Example ex_c61_comparisons :
  (forall a b, (Z.of_nat a =? Z.of_nat b) = Nat.eqb a b) /\ (forall a b, (Z.of_nat a <? Z.of_nat b) = Nat.ltb a b).
Proof.
  split; intros a b.
  - destruct (Nat.eqb_spec a b) as [->|N]; [apply Z.eqb_refl|]. apply Z.eqb_neq. lia.
  - destruct (Nat.ltb_spec a b) as [N|N]; [apply Z.ltb_lt|apply Z.ltb_ge]; lia.
Qed.
Example ex_c61_answers :
  (exists en w, run O Nat.eqb Nat.ltb true (Env [] []) ex_nats (World [] None) =
     Done (en, [ONone; ONone; ONone; ONone; OBool true; OVal 6%nat; OInts [2; 3]]) w) /\
  (exists en w, run 0 Z.eqb Z.ltb true (Env [] []) ex_ints (World [] None) =
     Done (en, [ONone; ONone; ONone; ONone; OBool true; OVal 6; OInts [2; 3]]) w).
Proof. split; eexists; eexists; vm_compute; reflexivity. Qed.
(** without the agreement of the comparisons the answers differ: comparing needs it *)
Example ex_c61_compare_needed :
  exists en w, run 0 Z.eqb Z.gtb true (Env [] []) ex_ints (World [] None) =
     Done (en, [ONone; ONone; ONone; ONone; OBool false; OVal 6; OInts [2; 3]]) w.
Proof. eexists; eexists; vm_compute; reflexivity. Qed.
Example ex_c61_brings : forall c, In c ex_ints -> brings (fun z => 0 <= z) c.
Proof.
  intros c H. unfold ex_ints, ex_one in H. simpl in H.
  repeat (destruct H as [<- | H]; [simpl; try exact I; try lia; intros; lia|]). destruct H.
Qed.
