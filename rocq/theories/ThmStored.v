(** ThmStored.v -- C56: kept subarrays and iterators are abbreviations. *)

From Coq Require Import Lia.
From Verif Require Import Base StorageOrder Ranges Layout Access Objects Memory Ops MultiArray History
  Stored Spec ReachSpec HistorySpec StoredSpec Facts MemoryProofs ReachProofs CopyProofs ThmAddressing ThmIter HistoryProofs ThmHistory.

Lemma tl_skipn {A} d (l : list A) : tl (skipn d l) = skipn (S d) l.
Proof. revert d. induction l as [|x l IH]; intros [|d]; simpl; auto. rewrite IH. destruct l; reflexivity. Qed.

(** ** what a kept object and its longhand reading have in common *)
Definition tie (chk : bool) (en : env) (k : kept) (n : note) : Prop :=
  match n with
  | NStale => True
  | NSub e => k_kind k = IsSub /\ k_parent k = head e /\ exists a, eval chk en e = Ok (OSub a) /\ kept_nd en k = Ok a
  | NIter e i => k_kind k = IsIter i /\ k_parent k = head e /\ exists o, eval chk en e = Ok o /\ kept_nd en k = Ok (obj_nd o)
  | NRev e i => k_kind k = IsRev i /\ k_parent k = head e /\ exists o, eval chk en e = Ok o /\ kept_nd en k = Ok (obj_nd o)
  end.
Definition tied (chk : bool) (en : env) (ks : list kept) (ns : list note) : Prop := Forall2 (tie chk en) ks ns.

Lemma tied_nth chk en ks ns k n : tied chk en ks ns -> nth_error ns k = Some n ->
  exists o, nth_error ks k = Some o /\ tie chk en o n.
Proof.
  intros H. revert k. induction H as [|o m ks ns T H IH]; intros [|k] E; simpl in *; try discriminate.
  - injection E as <-. eauto.
  - apply IH, E.
Qed.

Lemma it_nd_iter_of a i : it_nd (iter_of a i) = a.
Proof. destruct a; reflexivity. Qed.
Lemma signed_val x y : signed x = Ok y -> y = x.
Proof. unfold signed. destruct (in_index x); congruence. Qed.
Lemma sadd_zero i j : sadd i 0 = Ok j -> j = i.
Proof. intros H. apply signed_val in H. lia. Qed.
Lemma back_zero i j : back i 0 = Ok j -> j = i.
Proof. unfold back. simpl. intros H. apply signed_val in H. lia. Qed.

(** dereferencing a kept iterator moved n places *)
Lemma deref_referred chk en o n m e i : tie chk en o n -> referred n m = Some (e, i) ->
  exists a ob, kept_nd en o = Ok a /\ eval chk en e = Ok ob /\ a = obj_nd ob /\ k_parent o = head e /\
    (match k_kind o with
     | IsIter j => it_index_n chk (iter_of a j) m
     | IsRev j => r <- ri_advance (RIter (iter_of a j)) m ;; ri_deref_n chk r
     | IsSub => UB
     end) = access_n chk i a /\
    (m = 0 ->
     (match k_kind o with
      | IsIter j => it_deref_n chk (iter_of a j)
      | IsRev j => ri_deref_n chk (RIter (iter_of a j))
      | IsSub => UB
      end) = access_n chk i a /\ pointee chk a (k_kind o) = access_one chk i a).
Proof.
  intros T R. destruct n as [e0|e0 j|e0 j|]; simpl in R; try discriminate.
  - destruct T as (K & P & ob & E & N). destruct (sadd j m) as [j'| |] eqn:S; try discriminate.
    injection R as <- <-. exists (obj_nd ob), ob. rewrite K. split; [exact N|]. split; [exact E|]. split; [reflexivity|].
    split; [exact P|].
    split.
    + unfold it_index_n, it_advance. simpl. rewrite S. simpl. unfold it_deref_n; simpl.
      unfold it_nd; simpl. destruct (obj_nd ob); reflexivity.
    + intros ->. apply sadd_zero in S as ->. unfold it_deref_n, pointee, it_deref_one. simpl.
      now rewrite it_nd_iter_of.
  - destruct T as (K & P & ob & E & N). destruct (back j m) as [j'| |] eqn:S; try discriminate. simpl in R.
    destruct (ssub j' 1) as [j2| |] eqn:S2; try discriminate.
    injection R as <- <-. exists (obj_nd ob), ob. rewrite K. split; [exact N|]. split; [exact E|]. split; [reflexivity|].
    split; [exact P|].
    split.
    + unfold ri_advance, it_advance. simpl. unfold back in S. destruct (ssub 0 m) as [m'| |]; simpl in S |- *; try discriminate.
      rewrite S. simpl. unfold ri_deref_n, it_dec. simpl. rewrite S2. simpl. unfold it_deref_n; simpl.
      unfold it_nd; simpl. destruct (obj_nd ob); reflexivity.
    + intros ->. apply back_zero in S as ->. unfold ri_deref_n, pointee, ri_deref_one, it_dec. simpl.
      rewrite S2. simpl. unfold it_deref_n, it_deref_one, it_nd; simpl. destruct (obj_nd ob); split; reflexivity.
Qed.

Lemma keval_written chk en ks ns e : tied chk en ks ns -> forall e', written ns e = Some e' ->
  keval chk (KEnv en ks) e = eval chk en e'.
Proof.
  intros T. induction e as [x|h|k|k|k n|e IH i|e IH subs|e IH n|e IH n]; intros e' W; simpl in W.
  - injection W as <-. reflexivity.
  - injection W as <-. reflexivity.
  - destruct (nth_error ns k) as [[e0| | |]|] eqn:N; try discriminate. injection W as <-.
    destruct (tied_nth _ _ _ _ _ _ T N) as (o & NO & K & P & a & E & KN).
    simpl. unfold kept_at; simpl. rewrite NO; simpl. rewrite KN; simpl. now rewrite K.
  - unfold refers in W. destruct (nth_error ns k) as [n0|] eqn:N; [|discriminate].
    destruct (referred n0 0) as [[e0 i]|] eqn:R; [|discriminate]. injection W as <-.
    destruct (tied_nth _ _ _ _ _ _ T N) as (o & NO & TO).
    destruct (deref_referred _ _ _ _ _ _ _ TO R) as (a & ob & KN & E & -> & P & _ & D). destruct (D eq_refl) as [D1 _].
    simpl. unfold kept_at; simpl. rewrite NO; simpl. rewrite KN; simpl. rewrite E; simpl.
    destruct (k_kind o); rewrite <- D1; reflexivity.
  - unfold refers in W. destruct (nth_error ns k) as [n0|] eqn:N; [|discriminate].
    destruct (referred n0 n) as [[e0 i]|] eqn:R; [|discriminate]. injection W as <-.
    destruct (tied_nth _ _ _ _ _ _ T N) as (o & NO & TO).
    destruct (deref_referred _ _ _ _ _ _ _ TO R) as (a & ob & KN & E & -> & P & D & _).
    simpl. unfold kept_at; simpl. rewrite NO; simpl. rewrite KN; simpl. rewrite E; simpl. rewrite <- D.
    destruct (k_kind o) as [|j|j]; try reflexivity.
    destruct (ri_advance _ _); reflexivity.
  - destruct (written ns e) as [e0|]; [|discriminate]. injection W as <-. simpl. now rewrite (IH e0).
  - destruct (written ns e) as [e0|]; [|discriminate]. injection W as <-. simpl. now rewrite (IH e0).
  - destruct (written ns e) as [e0|]; [|discriminate]. injection W as <-. simpl. now rewrite (IH e0).
  - destruct (written ns e) as [e0|]; [|discriminate]. injection W as <-. simpl. now rewrite (IH e0).
Qed.

(** ** where the pointers of an object point *)
Definition seen_through (en : env) (p : parent) (d : nat) (b : nd) : Prop :=
  exists a, parent_nd en p = Ok a /\
    b = ND (nd_org b) (skipn d (nd_ext a)) (skipn d (nd_str a)) (skipn d (nd_base a)).

Lemma access_n_lists chk i a b : access_n chk i a = Ok b ->
  nd_ext b = tl (nd_ext a) /\ nd_str b = tl (nd_str a) /\ nd_base b = tl (nd_base a).
Proof.
  unfold access_n. destruct (nd_ext a) as [|e [|e2 es]], (nd_str a) as [|s ss], (nd_base a) as [|b0 bs]; try discriminate.
  destruct (range_check chk i b0 e); simpl; try discriminate. destruct (smul i s); simpl; try discriminate.
  intros H. injection H as <-. simpl. auto.
Qed.
Lemma seen_access en p d b chk i c : seen_through en p d b -> access_n chk i b = Ok c -> seen_through en p (S d) c.
Proof.
  intros (a & P & E) A. exists a. split; [exact P|]. apply access_n_lists in A as (A1 & A2 & A3).
  rewrite E in A1, A2, A3. simpl in A1, A2, A3. rewrite tl_skipn in A1, A2, A3.
  rewrite <- A1, <- A2, <- A3. destruct c; reflexivity.
Qed.
Lemma kept_seen en o a : kept_nd en o = Ok a -> seen_through en (k_parent o) (k_depth o) a.
Proof.
  unfold kept_nd. destruct (parent_nd en (k_parent o)) as [p| |] eqn:E; simpl; try discriminate.
  intros H. injection H as <-. exists p. auto.
Qed.
Lemma it_row chk a i k j b : nd_begin a = Ok i -> it_advance i k = Ok j -> it_deref_n chk j = Ok b ->
  exists m, access_n chk m a = Ok b.
Proof.
  unfold nd_begin. destruct (nd_base a) as [|b0 bs] eqn:B; [discriminate|]. intros H. injection H as <-.
  unfold it_advance; simpl. destruct (sadd b0 k) as [m| |]; simpl; try discriminate. intros H. injection H as <-.
  unfold it_deref_n; simpl. intros H. exists m. rewrite <- H. f_equal. unfold it_nd; simpl. rewrite <- B. destruct a; reflexivity.
Qed.
Lemma it_dec_shape i j : it_dec i = Ok j -> it_nd j = it_nd i.
Proof. unfold it_dec. destruct (ssub _ _); simpl; try discriminate. intros H. injection H as <-. reflexivity. Qed.
Lemma ri_inc_n_shape k : forall r s, ri_inc_n k r = Ok s -> it_nd (ri_base s) = it_nd (ri_base r).
Proof.
  induction k as [|k IH]; intros r s; simpl; [intros H; now injection H as <-|].
  destruct (ri_inc r) as [r'| |] eqn:E; simpl; try discriminate. intros H. rewrite (IH _ _ H).
  unfold ri_inc in E. destruct (it_dec (ri_base r)) eqn:D; simpl in E; try discriminate. injection E as <-.
  simpl. now apply it_dec_shape.
Qed.
Lemma ri_row chk a i k j b : nd_rbegin a = Ok i -> ri_inc_n k i = Ok j -> ri_deref_n chk j = Ok b ->
  exists m, access_n chk m a = Ok b.
Proof.
  unfold nd_rbegin, nd_end. intros H1 H2 H3. apply ri_inc_n_shape in H2.
  destruct (nd_base a) as [|b0 bs] eqn:B; [discriminate|]. destruct (nd_ext a) as [|e0 es] eqn:X; [discriminate|].
  destruct (sadd b0 (to_index e0)) as [z| |]; simpl in H1; try discriminate. injection H1 as <-. simpl in H2.
  unfold ri_deref_n in H3. destruct (it_dec (ri_base j)) as [q| |] eqn:D; simpl in H3; try discriminate.
  apply it_dec_shape in D. unfold it_deref_n in H3. exists (it_idx q). rewrite <- H3. f_equal. rewrite D, H2.
  unfold it_nd; simpl. rewrite <- B, <- X. destruct a; reflexivity.
Qed.

Lemma lists_seen chk en ks ns e e' o : tied chk en ks ns -> written ns e = Some e' ->
  eval chk en e' = Ok o -> head e' <> PGone ->
  fst (lists_of (KEnv en ks) e) = head e' /\
  seen_through en (fst (lists_of (KEnv en ks) e)) (snd (lists_of (KEnv en ks) e)) (obj_nd o).
Proof.
  intros T. revert e' o. induction e as [x|h|k|k|k n|e IH i|e IH subs|e IH n|e IH n]; intros e' o W E G; simpl in W.
  - injection W as <-. simpl in *. split; [reflexivity|]. exists (obj_nd o). simpl.
    destruct (var en x) as [a| |]; simpl in E; try discriminate. injection E as <-. simpl. auto.
  - injection W as <-. simpl in *. split; [reflexivity|]. exists (obj_nd o). simpl.
    destruct (named en h) as [a| |]; simpl in E; try discriminate. injection E as <-. simpl.
    split; [reflexivity|]. destruct (obj_nd _); reflexivity.
  - destruct (nth_error ns k) as [[e0| | |]|] eqn:N; try discriminate. injection W as <-.
    destruct (tied_nth _ _ _ _ _ _ T N) as (p & NO & K & P & a & E2 & KN). rewrite E in E2. injection E2 as ->.
    simpl. rewrite NO. simpl. split; [exact P|]. now apply kept_seen.
  - unfold refers in W. destruct (nth_error ns k) as [n0|] eqn:N; [|discriminate].
    destruct (referred n0 0) as [[e0 i]|] eqn:R; [|discriminate]. injection W as <-.
    destruct (tied_nth _ _ _ _ _ _ T N) as (p & NO & TO).
    destruct (deref_referred _ _ _ _ _ _ _ TO R) as (a & ob & KN & E2 & -> & P & _).
    simpl in E. rewrite E2 in E. simpl in E. destruct (access_n chk i (obj_nd ob)) as [b| |] eqn:A; try discriminate.
    injection E as <-. simpl. rewrite NO; simpl. split; [exact P|]. eapply seen_access; [apply kept_seen, KN|exact A].
  - unfold refers in W. destruct (nth_error ns k) as [n0|] eqn:N; [|discriminate].
    destruct (referred n0 n) as [[e0 i]|] eqn:R; [|discriminate]. injection W as <-.
    destruct (tied_nth _ _ _ _ _ _ T N) as (p & NO & TO).
    destruct (deref_referred _ _ _ _ _ _ _ TO R) as (a & ob & KN & E2 & -> & P & _).
    simpl in E. rewrite E2 in E. simpl in E. destruct (access_n chk i (obj_nd ob)) as [b| |] eqn:A; try discriminate.
    injection E as <-. simpl. rewrite NO; simpl. split; [exact P|]. eapply seen_access; [apply kept_seen, KN|exact A].
  - destruct (written ns e) as [e0|]; [|discriminate]. injection W as <-. simpl in E, G.
    destruct (eval chk en e0) as [ob| |] eqn:E0; simpl in E; try discriminate.
    destruct (IH _ _ eq_refl E0 G) as (H1 & H2).
    destruct (access_n chk i (obj_nd ob)) as [b| |] eqn:A; try discriminate. injection E as <-.
    simpl. split; [exact H1|]. eapply seen_access; eauto.
  - destruct (written ns e) as [e0|]; [|discriminate]. injection W as <-. now destruct G.
  - destruct (written ns e) as [e0|]; [|discriminate]. injection W as <-. simpl in E, G.
    destruct (eval chk en e0) as [ob| |] eqn:E0; simpl in E; try discriminate.
    destruct (IH _ _ eq_refl E0 G) as (H1 & H2).
    destruct (nd_begin (obj_nd ob)) as [i| |] eqn:B1; simpl in E; try discriminate.
    destruct (it_advance i n) as [j| |] eqn:B2; simpl in E; try discriminate.
    destruct (it_deref_n chk j) as [b| |] eqn:B3; simpl in E; try discriminate. injection E as <-.
    destruct (it_row _ _ _ _ _ _ B1 B2 B3) as (m & A). simpl. split; [exact H1|]. eapply seen_access; eauto.
  - destruct (written ns e) as [e0|]; [|discriminate]. injection W as <-. simpl in E, G.
    destruct (eval chk en e0) as [ob| |] eqn:E0; simpl in E; try discriminate.
    destruct (IH _ _ eq_refl E0 G) as (H1 & H2).
    destruct (nd_rbegin (obj_nd ob)) as [i| |] eqn:B1; simpl in E; try discriminate.
    destruct (ri_inc_n n i) as [j| |] eqn:B2; simpl in E; try discriminate.
    destruct (ri_deref_n chk j) as [b| |] eqn:B3; simpl in E; try discriminate. injection E as <-.
    destruct (ri_row _ _ _ _ _ _ B1 B2 B3) as (m & A). simpl. split; [exact H1|]. eapply seen_access; eauto.
Qed.
Lemma seen_kept en p d b s : seen_through en p d b -> kept_nd en (Kept p d (nd_org b) s) = Ok b.
Proof. intros (a & P & E). unfold kept_nd. simpl. rewrite P. simpl. now rewrite <- E. Qed.

(** ** commands leave the other variables and names alone *)
Definition stays (en en' : env) (p : parent) : Prop :=
  match p with
  | PVar x => forall a, var en x = Ok a -> var en' x = Ok a
  | PNamed h => forall d, named en h = Ok d -> named en' h = Ok d
  | PGone => True
  end.
Lemma stays_refl en p : stays en en p.
Proof. destruct p; simpl; auto. Qed.
Lemma nth_app_some {A} (l : list A) x k y : nth_error l k = Some y -> nth_error (l ++ [x]) k = Some y.
Proof. intros H. rewrite nth_error_app1; [exact H|]. apply nth_error_Some. congruence. Qed.
Lemma stays_declare en a p : stays en (declare en a) p.
Proof.
  destruct p as [x|h|]; simpl; auto. intros b. unfold var, declare; simpl.
  destruct (nth_error (e_vars en) x) as [o|] eqn:E; [|discriminate]. now rewrite (nth_app_some _ _ _ _ E).
Qed.
Lemma stays_name en a p : stays en (name en a) p.
Proof.
  destruct p as [x|h|]; simpl; auto. intros b. unfold named, name; simpl.
  destruct (nth_error (e_handles en) h) as [o|] eqn:E; [|discriminate]. now rewrite (nth_app_some _ _ _ _ E).
Qed.
Lemma stays_vars en x v p : (match p with PVar y => Nat.eqb x y | _ => false end) = false ->
  stays en (Env (set_nth x v (e_vars en)) (e_handles en)) p.
Proof.
  destruct p as [y|h|]; simpl; auto. intros E b. apply Nat.eqb_neq in E. unfold var; simpl.
  now rewrite nth_error_set_nth_ne by auto.
Qed.
Lemma stays_rename en x v p : (match p with PNamed y => Nat.eqb x y | _ => false end) = false -> stays en (rename en x v) p.
Proof.
  destruct p as [y|h|]; simpl; auto. intros E b. apply Nat.eqb_neq in E. unfold named, rename; simpl.
  now rewrite nth_error_set_nth_ne by auto.
Qed.

Lemma bind_done {T A B} (m : M T A) (k : A -> M T B) w b w' :
  bind m k w = Done b w' -> exists a w1, m w = Done a w1 /\ k a w1 = Done b w'.
Proof. unfold bind. destruct (m w); try discriminate. eauto. Qed.

Ltac unbind H := repeat (apply bind_done in H as (? & ? & _ & H)).
Lemma exec_stays {T} dflt eqT ltT chk en (c : @command T) w en' o w' p :
  exec dflt eqT ltT chk en c w = Done (en', o) w' -> regeometries c p = false -> stays en en' p.
Proof.
  intros H R. destruct c; cbn [exec] in H; unbind H;
    try (match type of H with match ?d with HView _ => _ | HRef _ => _ end _ = _ => destruct d end; unbind H);
    try discriminate H;
    try (unfold ret in H; injection H as <- _ _; first
      [apply stays_refl | apply stays_declare | apply stays_name
      | apply stays_vars; destruct p; try reflexivity; exact R
      | apply stays_rename; destruct p; try reflexivity; exact R]).
Qed.

Lemma eval_stays chk en en' e o : stays en en' (head e) -> head e <> PGone -> eval chk en e = Ok o -> eval chk en' e = Ok o.
Proof.
  revert o. induction e as [x|h|e IH i|e IH subs|e IH n|e IH n]; intros o K G E; simpl in *.
  - destruct (var en x) as [a| |] eqn:V; simpl in E; try discriminate. now rewrite (K a eq_refl).
  - destruct (named en h) as [a| |] eqn:V; simpl in E; try discriminate. now rewrite (K a eq_refl).
  - destruct (eval chk en e) as [a| |]; simpl in E; try discriminate. now rewrite (IH a K G eq_refl).
  - now destruct G.
  - destruct (eval chk en e) as [a| |]; simpl in E; try discriminate. now rewrite (IH a K G eq_refl).
  - destruct (eval chk en e) as [a| |]; simpl in E; try discriminate. now rewrite (IH a K G eq_refl).
Qed.
Lemma kept_stays en en' o a : stays en en' (k_parent o) -> kept_nd en o = Ok a -> kept_nd en' o = Ok a.
Proof.
  unfold kept_nd. destruct (k_parent o) as [x|h|]; simpl; auto; intros K.
  - destruct (var en x) as [b| |]; simpl; try discriminate. now rewrite (K b eq_refl).
  - destruct (named en h) as [b| |]; simpl; try discriminate. now rewrite (K b eq_refl).
Qed.
Lemma kept_not_gone en o a : kept_nd en o = Ok a -> k_parent o <> PGone.
Proof. unfold kept_nd. intros H E. rewrite E in H. discriminate. Qed.
Lemma tie_age {T} chk en en' (c : @command T) k n :
  (forall p, regeometries c p = false -> stays en en' p) -> tie chk en k n -> tie chk en' k (age c n).
Proof.
  intros K H. destruct n as [e|e i|e i|]; simpl in *; auto.
  - destruct (regeometries c (head e)) eqn:R; [exact I|]. destruct H as (A & B & a & C & D).
    split; [exact A|]. split; [exact B|]. exists a. pose proof (K _ R) as KK. pose proof (kept_not_gone _ _ _ D) as G.
    split; [eapply eval_stays; eauto; congruence|eapply kept_stays; eauto; congruence].
  - destruct (regeometries c (head e)) eqn:R; [exact I|]. destruct H as (A & B & a & C & D).
    split; [exact A|]. split; [exact B|]. exists a. pose proof (K _ R) as KK. pose proof (kept_not_gone _ _ _ D) as G.
    split; [eapply eval_stays; eauto; congruence|eapply kept_stays; eauto; congruence].
  - destruct (regeometries c (head e)) eqn:R; [exact I|]. destruct H as (A & B & a & C & D).
    split; [exact A|]. split; [exact B|]. exists a. pose proof (K _ R) as KK. pose proof (kept_not_gone _ _ _ D) as G.
    split; [eapply eval_stays; eauto; congruence|eapply kept_stays; eauto; congruence].
Qed.
Lemma tied_age {T} chk en en' (c : @command T) ks ns :
  (forall p, regeometries c p = false -> stays en en' p) -> tied chk en ks ns -> tied chk en' ks (map (age c) ns).
Proof. intros K H. induction H; simpl; constructor; auto. eapply tie_age; eauto. Qed.

(** ** one command *)
Lemma tied_app chk en ks ns k n : tied chk en ks ns -> tie chk en k n -> tied chk en (ks ++ [k]) (ns ++ [n]).
Proof. intros H T. apply Forall2_app; [exact H|]. constructor; [exact T|constructor]. Qed.
Lemma tied_set chk en ks ns i k n : tied chk en ks ns -> tie chk en k n -> tied chk en (set_nth i k ks) (set_nth i n ns).
Proof. intros H T. revert i. induction H as [|k' n' ks ns T' H IH]; intros [|i]; simpl; constructor; auto; apply IH. Qed.

Definition step_agrees {T} chk (r : res T (lenv * @output T)) (q : res T (kenv * @output T)) : Prop :=
  match r with
  | Done (le, o) w => exists ks, q = Done (KEnv (le_env le) ks, o) w /\ tied chk (le_env le) ks (le_notes le)
  | Thrown w => q = Thrown w
  | Aborted w => q = Aborted w
  | _ => True
  end.

(** commands that do not make or move kept objects *)
Lemma plain_agrees {T} dflt eqT ltT chk en ks ns (c : @command T) w (q : res T (kenv * output)) :
  tied chk en ks ns ->
  q = (r <~ exec dflt eqT ltT chk en c ;; ret (KEnv (fst r) ks, snd r)) w ->
  step_agrees chk ((r <~ exec dflt eqT ltT chk en c ;; ret (LEnv (fst r) (map (age c) ns), snd r)) w) q.
Proof.
  intros H ->. unfold bind. destruct (exec dflt eqT ltT chk en c w) as [[en' o] w'|w'|w'| |] eqn:E; simpl; auto.
  exists ks. split; [reflexivity|]. eapply tied_age; [|exact H]. intros p R. eapply exec_stays; eauto.
Qed.

Lemma list_eqb_same l : list_eqb l l = true.
Proof. induction l as [|x l IH]; simpl; [reflexivity|]. now rewrite Z.eqb_refl. Qed.
Lemma it_equal_same a m n : it_equal (iter_of a m) (iter_of a n) = (m =? n).
Proof.
  unfold it_equal, iter_of; simpl. rewrite !list_eqb_same. rewrite !andb_true_r.
  rewrite ptr_eqb_refl, andb_true_r. reflexivity.
Qed.

Lemma tie_unless_gone chk en e n k : (head e <> PGone -> tie chk en k n) -> tie chk en k (unless_gone e n).
Proof. intros H. unfold unless_gone. destruct (head e); try (apply H; discriminate). exact I. Qed.

Lemma start_index w a : 
  start w a = (i <- (match w with EBegin | EREnd => first_index a | EEnd | ERBegin => end_index a end) ;;
               Ok (match w with EBegin | EEnd => IsIter i | _ => IsRev i end)).
Proof.
  unfold start, nd_rbegin, nd_rend, nd_begin, nd_end, first_index, end_index.
  destruct w; destruct (nd_base a) as [|b bs]; try reflexivity; destruct (nd_ext a) as [|x xs]; try reflexivity;
    destruct (sadd b (to_index x)); reflexivity.
Qed.

Lemma keval_nd_written chk en ks ns e e' : tied chk en ks ns -> written ns e = Some e' ->
  keval_nd chk (KEnv en ks) e = eval_nd chk en e'.
Proof. intros H W. unfold keval_nd, eval_nd. now rewrite (keval_written _ _ _ _ _ H _ W). Qed.

Lemma by_command {T} dflt eqT ltT chk en ks ns (c : @kcommand T) w c' :
  tied chk en ks ns ->
  as_command ns c = Some c' ->
  lexec dflt eqT ltT chk (LEnv en ns) c =
    match as_command ns c with
    | Some c' => (r <~ exec dflt eqT ltT chk en c' ;; ret (LEnv (fst r) (map (age c') ns), snd r))
    | None => fun _ => Undef
    end ->
  kexec dflt eqT ltT chk (KEnv en ks) c w = (r <~ exec dflt eqT ltT chk en c' ;; ret (KEnv (fst r) ks, snd r)) w ->
  step_agrees chk (lexec dflt eqT ltT chk (LEnv en ns) c w) (kexec dflt eqT ltT chk (KEnv en ks) c w).
Proof. intros H A -> E. rewrite A. now apply plain_agrees with (ks := ks). Qed.

Lemma keval_nd_ok chk ke e a : keval_nd chk ke e = Ok a -> exists o, keval chk ke e = Ok o /\ a = obj_nd o.
Proof. unfold keval_nd. destruct (keval chk ke e); simpl; try discriminate. intros E. injection E as <-. eauto. Qed.

Ltac steps := unfold bind, lift, ret; repeat (match goal with
  | |- context [match ?x with _ => _ end] => destruct x eqn:?; try reflexivity; try discriminate
  end).

Theorem kexec_agrees : forall (T : Type) dflt eqT ltT chk en ks ns (c : @kcommand T) w,
  tied chk en ks ns ->
  step_agrees chk (lexec dflt eqT ltT chk (LEnv en ns) c w) (kexec dflt eqT ltT chk (KEnv en ks) c w).
Proof.
  intros T dflt eqT ltT chk en ks ns c w H.
  assert (one : forall e (f : expr -> @command T) k (g : nd -> M T (kenv * output)),
    as_command ns c = match written ns e with Some e' => Some (f e') | None => None end ->
    lexec dflt eqT ltT chk (LEnv en ns) c =
      match as_command ns c with
      | Some c' => (r <~ exec dflt eqT ltT chk en c' ;; ret (LEnv (fst r) (map (age c') ns), snd r))
      | None => fun _ => Undef
      end ->
    kexec dflt eqT ltT chk (KEnv en ks) c w = (a <~ lift (keval_nd chk (KEnv en ks) e) ;; g a) w ->
    (forall e', exec dflt eqT ltT chk en (f e') = (a <~ lift (eval_nd chk en e') ;; k a)) ->
    (forall a, g a w = (r <~ k a ;; ret (KEnv (fst r) ks, snd r)) w) ->
    step_agrees chk (lexec dflt eqT ltT chk (LEnv en ns) c w) (kexec dflt eqT ltT chk (KEnv en ks) c w)).
  { intros e f k g A L K E G. destruct (written ns e) as [e'|] eqn:W.
    - apply (by_command _ _ _ _ _ _ _ _ _ (f e') H A L). rewrite K, E, (keval_nd_written _ _ _ _ _ _ H W).
      unfold lift. destruct (eval_nd chk en e') as [a| |]; try reflexivity. apply G.
    - rewrite L, A. exact I. }
  destruct c.
  - apply by_command with (c' := c); auto. 
  - (* keep *)
    cbn [lexec le_notes le_env kexec]. destruct (written ns e) as [e'|] eqn:W; [|exact I].
    rewrite (keval_written _ _ _ _ _ H _ W).
    unfold bind, lift. destruct (eval chk en e') as [o| |] eqn:E; [|reflexivity|exact I].
    destruct o; try exact I. eexists. split; [reflexivity|]. cbn [le_env le_notes abbreviate].
    apply tied_app; [exact H|]. apply tie_unless_gone. intros G.
    destruct (lists_seen _ _ _ _ _ _ _ H W E G) as (E1 & E2). simpl in E2.
    split; [reflexivity|]. split; [exact E1|]. eexists. split; [exact E|]. apply seen_kept, E2.
  - (* start *)
    cbn [lexec le_notes le_env kexec]. destruct (written ns e) as [e'|] eqn:W; [|exact I].
    rewrite (keval_written _ _ _ _ _ H _ W). unfold eval_nd.
    unfold bind, lift. destruct (eval chk en e') as [o| |] eqn:E; [|reflexivity|exact I]. cbn [obind].
    rewrite start_index. 
    destruct (match w0 with EBegin | EREnd => first_index (obj_nd o) | _ => end_index (obj_nd o) end) as [i| |]; 
      [|reflexivity|exact I]. cbn [obind].
    eexists. split; [reflexivity|]. cbn [le_env le_notes abbreviate].
    apply tied_app; [exact H|]. apply tie_unless_gone. intros G.
    destruct (lists_seen _ _ _ _ _ _ _ H W E G) as (E1 & E2).
    destruct w0; (split; [reflexivity|]; split; [exact E1|]; eexists; split; [exact E|]; apply seen_kept, E2).
  - (* move *)
    cbn [lexec le_notes le_env kexec]. destruct (nth_error ns k) as [[|e i|e i|]|] eqn:N; try exact I;
      destruct (tied_nth _ _ _ _ _ _ H N) as (o & NO & K & P & ob & E & KN).
    + unfold bind, lift, kept_at. cbn [ke_kept ke_env]. rewrite NO, KN, K. unfold moved_kind, it_advance. cbn [it_idx iter_of].
      destruct (sadd i n) as [j| |]; [|reflexivity|exact I]. cbn.
      eexists. split; [reflexivity|]. apply tied_set; [exact H|]. split; [reflexivity|]. split; [exact P|].
      eexists. split; [exact E|]. exact KN.
    + unfold bind, lift, kept_at. cbn [ke_kept ke_env]. rewrite NO, KN, K. unfold moved_kind, ri_advance, it_advance, back.
      destruct (ssub 0 n) as [m| |]; [|reflexivity|exact I]. cbn [obind ri_base it_idx iter_of].
      destruct (sadd i m) as [j| |]; [|reflexivity|exact I]. cbn.
      eexists. split; [reflexivity|]. apply tied_set; [exact H|]. split; [reflexivity|]. split; [exact P|].
      eexists. split; [exact E|]. exact KN.
  - (* copy *)
    cbn [lexec le_notes le_env kexec]. destruct (nth_error ns k) as [n|] eqn:N; [|exact I].
    destruct (tied_nth _ _ _ _ _ _ H N) as (o & NO & TO).
    unfold bind, lift, kept_at. cbn [ke_kept ke_env]. rewrite NO. cbn. eexists. split; [reflexivity|].
    now apply tied_app.
  - (* same *)
    cbn [lexec le_notes le_env kexec].
    destruct (nth_error ns j) as [[|e i|e i|]|] eqn:N; try exact I;
      destruct (nth_error ns k) as [[|e2 i2|e2 i2|]|] eqn:N2; try exact I;
      destruct (tied_nth _ _ _ _ _ _ H N) as (o & NO & K & P & ob & E & KN);
      destruct (tied_nth _ _ _ _ _ _ H N2) as (o2 & NO2 & K2 & P2 & ob2 & E2 & KN2);
      (destruct (expr_eq_dec e e2) as [<-|]; [|exact I]); rewrite E in E2; injection E2 as <-;
      unfold bind, lift, kept_at; cbn [ke_kept ke_env]; rewrite NO, KN, NO2, KN2, K, K2;
      (exists ks; split; [|exact H]); unfold ret, ri_equal; cbn [ri_base]; now rewrite it_equal_same.
  - (* distance *)
    cbn [lexec le_notes le_env kexec].
    destruct (nth_error ns j) as [[|e i|e i|]|] eqn:N; try exact I;
      destruct (nth_error ns k) as [[|e2 i2|e2 i2|]|] eqn:N2; try exact I;
      destruct (tied_nth _ _ _ _ _ _ H N) as (o & NO & K & P & ob & E & KN);
      destruct (tied_nth _ _ _ _ _ _ H N2) as (o2 & NO2 & K2 & P2 & ob2 & E2 & KN2);
      unfold bind, lift, kept_at; cbn [ke_kept ke_env]; rewrite NO, KN, NO2, KN2, K, K2;
      unfold ri_distance, it_distance; cbn [ri_base it_idx iter_of];
      (destruct (ssub _ _); [|reflexivity|exact I]); exists ks; (split; [reflexivity|exact H]).
  - (* read *)
    destruct (refers ns k 0) as [[e i]|] eqn:R.
    2:{ cbn [lexec le_notes as_command]. rewrite R. exact I. }
    apply by_command with (c' := GetB e [i]); auto.
    { cbn [as_command]. now rewrite R. }
    unfold refers in R. destruct (nth_error ns k) as [n|] eqn:N; [|discriminate].
    destruct (tied_nth _ _ _ _ _ _ H N) as (o & NO & TO).
    destruct (deref_referred _ _ _ _ _ _ _ TO R) as (a & ob & KN & E2 & -> & P & _ & D).
    destruct (D eq_refl) as [_ D2].
    cbn [kexec exec]. unfold eval_nd. rewrite E2. cbn [obind]. unfold bind, lift, kept_at. cbn [ke_kept ke_env].
    rewrite NO, KN, D2. unfold get_bracket, bind, lift. cbn [bracket].
    destruct (access_one chk i (obj_nd ob)); try reflexivity. destruct (load _ w); reflexivity.
  - (* write *)
    destruct (refers ns k 0) as [[e i]|] eqn:R.
    2:{ cbn [lexec le_notes as_command]. rewrite R. exact I. }
    apply by_command with (c' := SetB e [i] v); auto.
    { cbn [as_command]. now rewrite R. }
    unfold refers in R. destruct (nth_error ns k) as [n|] eqn:N; [|discriminate].
    destruct (tied_nth _ _ _ _ _ _ H N) as (o & NO & TO).
    destruct (deref_referred _ _ _ _ _ _ _ TO R) as (a & ob & KN & E2 & -> & P & _ & D).
    destruct (D eq_refl) as [_ D2].
    cbn [kexec exec]. unfold eval_nd. rewrite E2. cbn [obind]. unfold bind, lift, kept_at. cbn [ke_kept ke_env].
    rewrite NO, KN, D2. unfold set_bracket, bind, lift. cbn [bracket].
    destruct (access_one chk i (obj_nd ob)) as [p| |]; try reflexivity. destruct (tick w); try reflexivity.
    destruct (store p v w0); reflexivity.
  - (* new from *)
    eapply one with (e := e) (f := fun e => NewFrom e so aid); try reflexivity.
    intros a. unfold bind. destruct (ma_convert _ _ _ _ _ w); reflexivity.
  - (* new view *)
    eapply one with (e := e) (f := fun e => NewView e subs); try reflexivity.
    intros a. unfold bind, lift. destruct (indices_of indices subs); try reflexivity.
    destruct (make_view chk a _); reflexivity.
  - (* assign *)
    destruct (written ns dst) as [d|] eqn:W1; [|cbn [lexec le_notes as_command]; rewrite W1; exact I].
    destruct (written ns src) as [s|] eqn:W2; [|cbn [lexec le_notes as_command]; rewrite W1, W2; exact I].
    apply by_command with (c' := Assign d s); auto; [cbn [as_command]; now rewrite W1, W2|].
    cbn [kexec exec]. rewrite (keval_nd_written _ _ _ _ _ _ H W1), (keval_nd_written _ _ _ _ _ _ H W2).
    unfold bind, lift. destruct (eval_nd chk en s); try reflexivity. destruct (eval_nd chk en d); try reflexivity.
    destruct (assign_nd _ _ _ _ w); reflexivity.
  - (* copy_array *)
    destruct (written ns dst) as [d|] eqn:W1; [|cbn [lexec le_notes as_command]; rewrite W1; exact I].
    destruct (written ns src) as [s|] eqn:W2; [|cbn [lexec le_notes as_command]; rewrite W1, W2; exact I].
    apply by_command with (c' := CopyArray d s); auto; [cbn [as_command]; now rewrite W1, W2|].
    cbn [kexec exec]. rewrite (keval_nd_written _ _ _ _ _ _ H W1), (keval_nd_written _ _ _ _ _ _ H W2).
    unfold bind, lift. destruct (eval_nd chk en s); try reflexivity. destruct (eval_nd chk en d); try reflexivity.
    destruct (copy_array _ _ _ _ w); reflexivity.
  - eapply one with (e := e) (f := fun e => Get e i); try reflexivity.
    intros a. unfold bind. destruct (get_element _ _ _ w); reflexivity.
  - eapply one with (e := e) (f := fun e => Set_ e i v); try reflexivity.
    intros a. unfold bind. destruct (set_element _ _ _ _ w); reflexivity.
  - eapply one with (e := e) (f := fun e => GetB e i); try reflexivity.
    intros a. unfold bind. destruct (get_bracket _ _ _ w); reflexivity.
  - eapply one with (e := e) (f := fun e => SetB e i v); try reflexivity.
    intros a. unfold bind. destruct (set_bracket _ _ _ _ w); reflexivity.
  - eapply one with (e := e) (f := fun e => ForEach e f); try reflexivity.
    intros a. unfold bind. destruct (for_each _ _ _ _ w); reflexivity.
  - (* compare *)
    destruct (written ns a) as [d|] eqn:W1; [|cbn [lexec le_notes as_command]; rewrite W1; exact I].
    destruct (written ns b) as [s|] eqn:W2; [|cbn [lexec le_notes as_command]; rewrite W1, W2; exact I].
    apply by_command with (c' := Compare op d s); auto; [cbn [as_command]; now rewrite W1, W2|].
    cbn [kexec exec]. rewrite (keval_nd_written _ _ _ _ _ _ H W1), (keval_nd_written _ _ _ _ _ _ H W2).
    unfold bind, lift. destruct (eval_nd chk en d); try reflexivity. destruct (eval_nd chk en s); try reflexivity.
    destruct (compare _ _ _ _ _ _ _); reflexivity.
  - (* ask *)
    destruct (written ns e) as [d|] eqn:W1; [|cbn [lexec le_notes as_command]; rewrite W1; exact I].
    apply by_command with (c' := Ask q d); auto; [cbn [as_command]; now rewrite W1|].
    cbn [kexec exec]. rewrite (keval_written _ _ _ _ _ H _ W1). unfold bind, lift.
    destruct (eval chk en d) as [o| |]; try reflexivity. destruct (answer q o); reflexivity.
Qed.

(** ** programs *)
Lemma run_agrees {T} dflt eqT ltT chk : forall p en ks ns (h : heap T), tied chk en ks ns ->
  match run_steps (lexec dflt eqT ltT chk) (LEnv en ns) p h with
  | Done (le, os) w => exists ks', run_steps (kexec dflt eqT ltT chk) (KEnv en ks) p h = Done (KEnv (le_env le) ks', os) w
  | Thrown w => run_steps (kexec dflt eqT ltT chk) (KEnv en ks) p h = Thrown w
  | Aborted w => run_steps (kexec dflt eqT ltT chk) (KEnv en ks) p h = Aborted w
  | _ => True
  end.
Proof.
  induction p as [|[c f] p IH]; intros en ks ns h H; cbn [run_steps].
  - eexists. reflexivity.
  - pose proof (kexec_agrees T dflt eqT ltT chk en ks ns c (World h f) H) as A. unfold step_agrees in A.
    destruct (lexec dflt eqT ltT chk (LEnv en ns) c (World h f)) as [[[en' ns'] o] w|w|w| |]; try exact I.
    + destruct A as (ks' & -> & H'). cbn [le_env le_notes] in *. specialize (IH en' ks' ns' (w_heap w) H').
      destruct (run_steps (lexec _ _ _ _) _ p (w_heap w)) as [[le os] w2|w2|w2| |]; try exact I.
      * destruct IH as (ks2 & ->). eexists. reflexivity.
      * now rewrite IH.
      * now rewrite IH.
    + rewrite A. specialize (IH en ks ns (w_heap w) H).
      destruct (run_steps (lexec _ _ _ _) _ p (w_heap w)) as [[le os] w2|w2|w2| |]; try exact I.
      * destruct IH as (ks2 & ->). eexists. reflexivity.
      * now rewrite IH.
      * now rewrite IH.
    + now rewrite A.
Qed.

(** a program that keeps subarrays and iterators does what the same program does
    when every use of one is written out as an expression, as long as none is used
    after its array's geometry was changed *)
Theorem c56_kept_objects_are_abbreviations : forall (T : Type) (dflt : T) eqT ltT chk p,
  match run_steps (lexec dflt eqT ltT chk) (LEnv (Env [] []) []) p [] with
  | Done (le, os) w => exists ks,
      run_steps (kexec dflt eqT ltT chk) (KEnv (Env [] []) []) p [] = Done (KEnv (le_env le) ks, os) w
  | Aborted w => run_steps (kexec dflt eqT ltT chk) (KEnv (Env [] []) []) p [] = Aborted w
  | Thrown _ | Undef | OutOfFuel => True
  end.
Proof.
  intros T dflt eqT ltT chk p. pose proof (run_agrees dflt eqT ltT chk p (Env [] []) [] [] [] (Forall2_nil _)) as H.
  destruct (run_steps (lexec _ _ _ _) _ p []) as [[le os] w|w|w| |]; auto.
Qed.

(** ** the longhand machine does what the abstract machine says *)
Lemma index_of z : index_value z -> idx_min <= z <= idx_max.
Proof. unfold index_value. unconst. lia. Qed.
Lemma subarray_osub chk en e o : is_subarray e = true -> eval chk en e = Ok o -> exists a, o = OSub a.
Proof.
  destruct e; simpl; try discriminate; intros _.
  - destruct (eval chk en e); simpl; try discriminate. destruct (access_n chk i _); simpl; try discriminate. intros E; injection E as <-; eauto.
  - destruct (eval chk en e) as [x| |]; simpl; try discriminate. destruct (nd_begin _) as [i| |]; simpl; try discriminate.
    destruct (it_advance i _) as [j| |]; simpl; try discriminate. destruct (it_deref_n chk j); simpl; try discriminate. intros E; injection E as <-; eauto.
  - destruct (eval chk en e) as [x| |]; simpl; try discriminate. destruct (nd_rbegin _) as [i| |]; simpl; try discriminate.
    destruct (ri_inc_n _ i) as [j| |]; simpl; try discriminate. destruct (ri_deref_n chk j); simpl; try discriminate. intros E; injection E as <-; eauto.
Qed.

Lemma kstep_sound {T} dflt eqT ltT chk (st : @state T) ns c o st' ns' en (h : heap T) :
  related st en h -> kstep dflt eqT ltT st ns c o st' ns' ->
  exists en' h', lexec dflt eqT ltT chk (LEnv en ns) c (World h None) = Done (LEnv en' ns', o) (World h' None) /\
    related st' en' h'.
Proof.
  intros HR HK. destruct HK as [c c' o st' HA HS|e e' p W B D|w e e' x b bs n shape strides m W D|k n e i N V|k n e i N V1 V2
    |k n N|j k e m n N1 N2|j k e m n N1 N2|j k e m n N1 N2 V|j k e m n N1 N2 V].
  - assert (L : lexec dflt eqT ltT chk (LEnv en ns) c =
      (r <~ exec dflt eqT ltT chk en c' ;; ret (LEnv (fst r) (map (age c') ns), snd r))).
    { destruct c; cbn [lexec le_notes le_env]; rewrite ?HA; try reflexivity; discriminate HA. }
    rewrite L. pose proof (exec_sound dflt eqT ltT st en h c' o st' chk None HR HS) as F. unfold bind.
    destruct (exec dflt eqT ltT chk en c' (World h None)) as [[en' o'] [h' f']|w|w| |]; cbn [follows w_heap w_fuse] in F; try tauto; try (exfalso; destruct F as (_ & ? & ? & ? & _); discriminate).
    destruct F as (-> & R' & Hf & _). rewrite (Hf eq_refl). exists en', h'. auto.
  - destruct (denotes_eval st en h chk e' p HR D) as (ob & c & E & _). destruct (subarray_osub _ _ _ _ B E) as (a & ->).
    exists en, h. split; [|exact HR]. cbn [lexec le_notes le_env]. rewrite W. unfold bind, lift. rewrite E. reflexivity.
  - destruct (denotes_eval st en h chk e' _ HR D) as (ob & c & E & Hs & _).
    exists en, h. split; [|exact HR]. cbn [lexec le_notes le_env]. rewrite W. unfold eval_nd, bind, lift. rewrite E. cbn [obind].
    pose proof Hs as (mm & Em & Hc & HL & Hd & Eb & Ee & _). cbn [pl_bases pl_shape] in Eb, Ee.
    pose proof (derived_ok _ _ Hc Hd) as Hok. destruct (dims_at _ Hok) as (b' & bs' & e1 & es' & Eb' & Ee' & He & Hb & Hbe & E1 & E2).
    assert (b' = b /\ e1 = n) as [-> ->] by (split; congruence).
    unfold first_index, end_index. rewrite Eb, Ee. rewrite to_index_small by (unconst; lia). rewrite sadd_ok by (unconst; lia).
    destruct w; reflexivity.
  - exists en, h. split; [|exact HR]. cbn [lexec le_notes le_env]. rewrite N. unfold bind, lift.
    rewrite sadd_ok by now apply index_of. reflexivity.
  - exists en, h. split; [|exact HR]. cbn [lexec le_notes le_env]. rewrite N. unfold bind, lift, back.
    rewrite ssub_ok by (apply index_of; now rewrite Z.sub_0_l). cbn [obind].
    rewrite sadd_ok by (apply index_of; now replace (i + (0 - n)) with (i - n) by lia).
    replace (i + (0 - n)) with (i - n) by lia. reflexivity.
  - exists en, h. split; [|exact HR]. cbn [lexec le_notes le_env]. rewrite N. reflexivity.
  - exists en, h. split; [|exact HR]. cbn [lexec le_notes le_env]. rewrite N1, N2.
    destruct (expr_eq_dec e e); [reflexivity|congruence].
  - exists en, h. split; [|exact HR]. cbn [lexec le_notes le_env]. rewrite N1, N2.
    destruct (expr_eq_dec e e); [reflexivity|congruence].
  - exists en, h. split; [|exact HR]. cbn [lexec le_notes le_env]. rewrite N1, N2. unfold bind, lift.
    rewrite ssub_ok by now apply index_of. reflexivity.
  - exists en, h. split; [|exact HR]. cbn [lexec le_notes le_env]. rewrite N1, N2. unfold bind, lift.
    rewrite ssub_ok by now apply index_of. reflexivity.
Qed.

(** contract-keeping programs with kept subarrays and iterators behave as the
    abstract machine says *)
Theorem c56_programs_behave_as_specified : forall (T : Type) (dflt : T) eqT ltT chk p os st ns,
  ksteps dflt eqT ltT empty_state [] p os st ns ->
  exists en ks h, run_steps (kexec dflt eqT ltT chk) (KEnv (Env [] []) []) (map (fun c => (c, None)) p) [] =
    Done (KEnv en ks, map Some os) (World h None) /\ agrees st en h.
Proof.
  intros T dflt eqT ltT chk p os st ns HS.
  assert (G : forall p st0 ns0 os st ns en ks (h : heap T), related st0 en h -> tied chk en ks ns0 ->
    ksteps dflt eqT ltT st0 ns0 p os st ns ->
    exists en' ks' h', run_steps (kexec dflt eqT ltT chk) (KEnv en ks) (map (fun c => (c, None)) p) h =
      Done (KEnv en' ks', map Some os) (World h' None) /\ related st en' h').
  { clear. induction p as [|c p IH]; intros st0 ns0 os st ns en ks h R H S; inversion S; subst.
    - exists en, ks, h. split; [reflexivity|exact R].
    - match goal with H1 : kstep _ _ _ _ _ _ _ _ _, H2 : ksteps _ _ _ _ _ _ _ _ _ |- _ => rename H1 into K1; rename H2 into K2 end.
      destruct (kstep_sound dflt eqT ltT chk _ _ _ _ _ _ _ _ R K1) as (en1 & h1 & E1 & R1).
      pose proof (kexec_agrees T dflt eqT ltT chk en ks ns0 c (World h None) H) as A. rewrite E1 in A. cbn in A.
      destruct A as (ks1 & E2 & T1). destruct (IH _ _ _ _ _ _ ks1 _ R1 T1 K2) as (en2 & ks2 & h2 & E3 & R2).
      exists en2, ks2, h2. split; [|exact R2]. cbn [run_steps map]. rewrite E2. cbn [w_heap]. now rewrite E3. }
  destruct (G p empty_state [] os st ns (Env [] []) [] [] related_nil (Forall2_nil _) HS) as (en & ks & h & E & R).
  exists en, ks, h. split; [exact E|now apply related_agrees].
Qed.

(** ** what the restriction is about *)

(** a subarray or iterator kept from an unnamed view (auto row = a[indices[..]][i])
    points into lists that are gone at the end of that statement: whatever it is
    used for afterwards is undefined *)
Fixpoint from_view (e : kexpr) : bool :=
  match e with XView _ _ => true | XSub e _ | XRow e _ | XRev_row e _ => from_view e | _ => false end.
Lemma from_view_gone ke e : from_view e = true -> fst (lists_of ke e) = PGone.
Proof. induction e; simpl; try discriminate; auto. Qed.
Theorem c56_unnamed_view_refuted : forall (T : Type) (dflt : T) eqT ltT chk ke e w ke' o w',
  from_view e = true -> (kexec dflt eqT ltT chk ke (XKeep e) w = Done (ke', o) w' \/
    exists edge, kexec dflt eqT ltT chk ke (XStart edge e) w = Done (ke', o) w') ->
  exists k, (k < length (ke_kept ke'))%nat /\
    forall w i n v, kexec dflt eqT ltT chk ke' (XGet (XKept k) i) w = Undef /\
      kexec dflt eqT ltT chk ke' (XSet (XKept k) i v) w = Undef /\
      kexec dflt eqT ltT chk ke' (XGet (XDeref k) i) w = Undef /\
      kexec dflt eqT ltT chk ke' (XMove k n) w = Undef /\
      kexec dflt eqT ltT chk ke' (XRead k) w = Undef /\
      kexec dflt eqT ltT chk ke' (XWrite k v) w = Undef.
Proof.
  intros T dflt eqT ltT chk ke e w ke' o w' F H.
  assert (G : exists x, ke' = keep ke x /\ k_parent x = PGone).
  { destruct H as [H|[edge H]]; cbn [kexec] in H; unfold bind, lift in H; destruct (keval chk ke e) as [ob| |]; try discriminate.
    - destruct ob; try discriminate. injection H as <- _ _. eexists. split; [reflexivity|]. now apply from_view_gone.
    - destruct (start edge (obj_nd ob)); try discriminate. injection H as <- _ _. eexists. split; [reflexivity|].
      now apply from_view_gone. }
  destruct G as (x & -> & P). exists (length (ke_kept ke)). cbn [keep ke_kept ke_env]. rewrite app_length. simpl length.
  split; [lia|]. intros w1 i n v.
  assert (A : kept_at (keep ke x) (length (ke_kept ke)) = Ok x).
  { unfold kept_at, keep. cbn [ke_kept]. rewrite nth_error_app2, Nat.sub_diag by lia. reflexivity. }
  assert (B : kept_nd (ke_env ke) x = UB) by (unfold kept_nd; now rewrite P).
  cbn [kexec]. unfold keval_nd. cbn [keval]. unfold bind, lift. rewrite A. cbn [obind keep ke_env]. rewrite B. cbn [obind].
  repeat split.
Qed.

(** the array is reindexed in between: the kept row still says it has bases 0
    after the first dimension, but its pointer is where row 0 was and its own list
    now starts from the new base: reading its "first" element gives the array's
    second one (see C30) *)
Definition ex_c56_reindexed : list (@kcommand Z * option nat) :=
  [ (XDo (NewList [2; 3] (so_from_c 2) 7), None);
    (XDo (Fill 0 [1; 2; 3; 4; 5; 6]), None);
    (XKeep (XSub (XVar 0) 0), None);
    (XDo (ReindexAll 0 1), None);
    (XGet (XKept 0) [1], None);
    (XGet (XSub (XVar 0) 1) [1], None) ].
Theorem c56_reindexed_parent_refuted : exists ke h,
  run_steps (kexec 0 Z.eqb Z.ltb true) (KEnv (Env [] []) []) ex_c56_reindexed [] =
    Done (ke, [Some ONone; Some ONone; Some ONone; Some ONone; Some (OVal 2); Some (OVal 1)]) (World h None) /\
  run_steps (lexec 0 Z.eqb Z.ltb true) (LEnv (Env [] []) []) ex_c56_reindexed [] = Undef.
Proof. eexists. eexists. split; vm_compute; reflexivity. Qed.

(** a program that keeps a row, two iterators and a reverse iterator, moves and
    compares them, reads, writes and assigns through them *)
Definition ex_kept : list (@kcommand Z) :=
  [ XDo (NewRanges [(1, 3); (0, 3)] (so_from_c 2) 7);
    XDo (Fill 0 [1; 2; 3; 4; 5; 6]);
    XKeep (XSub (XVar 0) 2);
    XStart EBegin (XKept 0); XStart EEnd (XKept 0); XStart ERBegin (XVar 0);
    XMove 1 1; XDistance 1 2; XRead 1;
    XWrite 1 9; XCopyOf 1; XMove 4 2; XSame 4 2;
    XGet (XDeref 3) [1];
    XMove 3 1; XAssign (XDeref 3) (XKept 0);
    XGet (XVar 0) [1; 1] ].
Example ex_c56_run : exists ke h,
  run_steps (kexec 0 Z.eqb Z.ltb true) (KEnv (Env [] []) []) (map (fun c => (c, None)) ex_kept) [] =
    Done (ke, map Some [ONone; ONone; ONone; ONone; ONone; ONone; ONone; OInt 2; OVal 5; ONone; ONone; ONone;
      OBool true; OVal 9; ONone; ONone; OVal 9]) (World h None).
Proof. eexists. eexists. vm_compute. reflexivity. Qed.
Example ex_c56_longhand : exists le h,
  run_steps (lexec 0 Z.eqb Z.ltb true) (LEnv (Env [] []) []) (map (fun c => (c, None)) ex_kept) [] =
    Done (le, map Some [ONone; ONone; ONone; ONone; ONone; ONone; ONone; OInt 2; OVal 5; ONone; ONone; ONone;
      OBool true; OVal 9; ONone; ONone; OVal 9]) (World h None).
Proof. eexists. eexists. vm_compute. reflexivity. Qed.
(** the abstract machine on such a program *)
Definition ex_kept_short : list (@kcommand Z) :=
  [ XDo (NewList [2; 3] (so_from_c 2) 7); XDo (Fill 0 [1; 2; 3; 4; 5; 6]);
    XKeep (XSub (XVar 0) 0); XStart EBegin (XKept 0); XStart ERBegin (XKept 0);
    XMove 1 1; XRead 1; XMove 2 1; XRead 2; XDo (ReindexAll 0 1) ].
Example ex_c56 : exists st ns, ksteps 0 Z.eqb Z.ltb empty_state [] ex_kept_short
  [ONone; ONone; ONone; ONone; ONone; ONone; OVal 2; ONone; OVal 2; ONone] st ns /\ ns = [NStale; NStale; NStale].
Proof.
  eexists. eexists. split.
  unfold ex_kept_short.
  eapply kss_cons; [eapply ks_command; [reflexivity|apply s_list; apply ex_well_formed]|].
  change (add_array _ _) with (ex_st [0; 0; 0; 0; 0; 0]).
  eapply kss_cons; [eapply ks_command; [reflexivity|eapply s_fill; reflexivity]|].
  change (set_array _ _ _) with (ex_st [1; 2; 3; 4; 5; 6]).
  eapply kss_cons; [eapply ks_keep; [reflexivity|reflexivity|apply ex_denotes_dst]|].
  eapply kss_cons; [eapply ks_start; [reflexivity|apply ex_denotes_dst]|].
  eapply kss_cons; [eapply ks_start; [reflexivity|apply ex_denotes_dst]|].
  eapply kss_cons; [eapply ks_move; [reflexivity|unfold index_value, edge_index; unconst; lia]|].
  eapply kss_cons; [eapply ks_command; [reflexivity|eapply s_getb; [apply ex_denotes_dst|look_one]]|].
  eapply kss_cons; [eapply ks_move_back; [reflexivity|unfold index_value; unconst; lia|unfold index_value, edge_index; unconst; lia]|].
  eapply kss_cons; [eapply ks_command; [reflexivity|eapply s_getb; [apply ex_denotes_dst|look_one]]|].
  eapply kss_cons; [eapply ks_command; [reflexivity|eapply s_reindex_all; [reflexivity|]]|apply kss_nil].
  - cbn. split; [apply (proj1 (c02_named_orders_valid 2))|]. split; [|reflexivity].
    cbn [a_order a_bases a_shape]. change (so_from_c 2) with (SO [1%nat; 0%nat] [true; true]). layout_tac.
  - reflexivity.
Qed.
