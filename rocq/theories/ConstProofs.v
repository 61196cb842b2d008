(** ConstProofs.v -- lemmas for C45 *)

From Coq Require Import ZArith List Bool Lia.
From Verif Require Import Base StorageOrder Ranges Layout Access Objects Memory Ops MultiArray Const ConstSpec Facts ViewProofs.
Import ListNotations.
Local Open Scope Z_scope.

(** * Types *)

Lemma read_only_step t o t' : read_only t = true -> loophole t o = false -> op_type t o = Some t' ->
  read_only t' = true.
Proof.
  destruct t as [c n k|p n|p n|k|p].
  - destruct c as [| |[]| |[]| |[]]; destruct k; destruct o as [m| | | | | | | | | |c'|q];
      try (cbn; discriminate);
      try (destruct m; cbn; unfold slice; try (destruct (Nat.eqb _ _)); destruct n as [|[|]]; cbn;
           intros; try discriminate; congruence || (inversion H1; subst; reflexivity));
      try (cbn; intros _ _ [= <-]; reflexivity);
      try (destruct c' as [| |[]| |[]| |[]]; cbn; intros; try discriminate; inversion H1; subst; reflexivity).
  - destruct p, o as [m| | | | | | | | | |c'|[]]; cbn; intros; try discriminate;
      try (destruct n as [|[|]]); cbn in *; try discriminate; inversion H1; subst; reflexivity.
  - destruct p, o as [m| | | | | | | | | |c'|[]]; cbn; intros; try discriminate;
      try (destruct n as [|[|]]); cbn in *; try discriminate; inversion H1; subst; reflexivity.
  - destruct k, o as [m| | | | | | | | | |c'|[]]; cbn; intros; try discriminate; inversion H1; subst; reflexivity.
  - destruct p, o as [m| | | | | | | | | |c'|[]]; cbn; intros; try discriminate; inversion H1; subst; reflexivity.
Qed.

Lemma read_only_not_modifiable t w : read_only t = true -> changes_elements w = true -> modifier_ok t w = false.
Proof.
  destruct t as [c n k|p n|p n|k|p]; try reflexivity.
  - destruct c as [| |[]| |[]| |[]], w, k; cbn; intros; congruence || reflexivity.
  - destruct k, w; cbn; congruence || reflexivity.
Qed.

Lemma chain_read_only p : forall t t', read_only t = true -> no_loophole t p = true -> chain_type t p = Some t' ->
  read_only t' = true.
Proof.
  induction p as [|o p IH]; intros t t' HR HL HC; cbn in *.
  - congruence.
  - apply andb_prop in HL. destruct HL as [HL1 HL2]. apply negb_true_iff in HL1.
    destruct (op_type t o) as [t1|] eqn:E; [|discriminate].
    apply (IH t1 t'); auto. eapply read_only_step; eauto.
Qed.

(** a mutable handle leads to a modification *)
Lemma writable_exact t : read_only t = false -> (1 <= typ_dims t)%nat -> can_modify t.
Proof.
  intros H HD. destruct t as [c n k|p n|p n|k|p]; cbn in HD.
  - destruct c as [| |[]| |[]| |[]]; cbn in H; try discriminate; try subst k.
    + exists [], (TObj KMultiArray n false), WArray. repeat split.
    + exists [], (TObj KRef n false), WArray. repeat split.
    + exists [], (TObj (KConstRef PMut) n false), WRange. repeat split.
    + exists [], (TObj KSub n false), WArray. repeat split.
    + exists [OMember MOrigin; ODeref], (TElem false), WElement. destruct k; repeat split.
    + exists [], (TObj KView n false), WArray. repeat split.
  - destruct p; [|discriminate]. destruct n as [|[|n]]; [lia| |].
    + exists [ODeref], (TElem false), WElement. repeat split.
    + exists [ODeref], (TObj KSub (S n) false), WArray. repeat split.
  - destruct p; [|discriminate]. destruct n as [|[|n]]; [lia| |].
    + exists [ODeref], (TElem false), WElement. repeat split.
    + exists [ODeref], (TObj KSub (S n) false), WArray. repeat split.
  - cbn in H; subst k. exists [], (TElem false), WElement. repeat split.
  - destruct p; [|discriminate]. exists [ODeref], (TElem false), WElement. repeat split.
Qed.

(** the const objects answer the same chains of accesses *)
Lemma mirror_step t o t' : is_access o = true -> op_type t o = Some t' ->
  op_type (read_only_version t) o = Some (read_only_version t').
Proof.
  destruct t as [c n k|p n|p n|k|p].
  - destruct c as [| |[]| |[]| |[]]; destruct o as [m| | | | | | | | | |c'|q]; try (cbn; discriminate);
      intros _; destruct k;
      (destruct m; cbn; unfold slice; try (destruct (Nat.eqb _ _)); destruct n as [|[|]]; cbn;
           intros E; try discriminate; inversion E; subst; reflexivity).
  - destruct p, o as [m| | | | | | | | | |c'|[]]; cbn; intros; try discriminate;
      try (destruct n as [|[|]]); cbn in *; try discriminate; inversion H0; subst; reflexivity.
  - destruct p, o as [m| | | | | | | | | |c'|[]]; cbn; intros; try discriminate;
      try (destruct n as [|[|]]); cbn in *; try discriminate; inversion H0; subst; reflexivity.
  - destruct k, o as [m| | | | | | | | | |c'|[]]; cbn; intros; try discriminate; inversion H0; subst; reflexivity.
  - destruct p, o as [m| | | | | | | | | |c'|[]]; cbn; intros; try discriminate; inversion H0; subst; reflexivity.
Qed.
Lemma mirror_chain p : forall t t', forallb is_access p = true -> chain_type t p = Some t' ->
  chain_type (read_only_version t) p = Some (read_only_version t').
Proof.
  induction p as [|o p IH]; intros t t' HA HC; cbn in *.
  - congruence.
  - apply andb_prop in HA. destruct HA as [H1 H2]. destruct (op_type t o) as [t1|] eqn:E; [|discriminate].
    rewrite (mirror_step t o t1 H1 E). auto.
Qed.

(** * Storage *)

Section Frame.
Context {T : Type}.
Variable P : nat -> Prop.        (* blocks that may change *)
Variable n0 : nat.               (* blocks from n0 on are new *)

Definition fr (h h' : heap T) : Prop :=
  (length h <= length h')%nat /\ forall b, (b < n0)%nat -> ~ P b -> nth_error h' b = nth_error h b.

(** m changes only blocks in P or new ones, and its results satisfy Q *)
Definition keeps {A} (Q : A -> Prop) (m : M T A) : Prop :=
  forall w, (n0 <= length (w_heap w))%nat ->
  match m w with
  | Done a w' => Q a /\ fr (w_heap w) (w_heap w')
  | Thrown w' | Aborted w' => fr (w_heap w) (w_heap w')
  | _ => True
  end.

Definition may (b : nat) : Prop := P b \/ (n0 <= b)%nat.

Lemma fr_refl h : fr h h. Proof. split; auto. Qed.
Lemma fr_trans h1 h2 h3 : fr h1 h2 -> fr h2 h3 -> fr h1 h3.
Proof. intros [A1 B1] [A2 B2]. split; [lia|]. intros b Hb HP. rewrite B2, B1; auto. Qed.

Lemma k_ret {A} (Q : A -> Prop) a : Q a -> keeps Q (ret a).
Proof. intros H w _. split; [exact H|apply fr_refl]. Qed.
Lemma k_bind {A B} (Q : A -> Prop) (R : B -> Prop) (m : M T A) f :
  keeps Q m -> (forall a, Q a -> keeps R (f a)) -> keeps R (bind m f).
Proof.
  intros Hm Hf w Hw. unfold bind. specialize (Hm w Hw). destruct (m w) as [a w'|w'|w'| |]; auto.
  destruct Hm as [HQ Hfr]. specialize (Hf a HQ w').
  assert (n0 <= length (w_heap w'))%nat as Hw' by (destruct Hfr; lia).
  specialize (Hf Hw'). destruct (f a w') as [b w''|w''|w''| |]; auto.
  - destruct Hf; split; auto. eapply fr_trans; eauto.
  - eapply fr_trans; eauto.
  - eapply fr_trans; eauto.
Qed.
Lemma k_weak {A} (Q R : A -> Prop) (m : M T A) : (forall a, Q a -> R a) -> keeps Q m -> keeps R m.
Proof.
  intros H Hm w Hw. specialize (Hm w Hw). destruct (m w); auto. destruct Hm; split; auto.
Qed.
Lemma k_lift {A} (Q : A -> Prop) (o : outcome A) : (forall a, o = Ok a -> Q a) -> keeps Q (lift (T := T) o).
Proof. intros H w _. unfold lift. destruct o; auto; [split; auto|]; apply fr_refl. Qed.
Lemma k_undef {A} (Q : A -> Prop) : keeps Q (fun _ => @Undef T A). Proof. intros w _. exact I. Qed.
Lemma k_fuel {A} (Q : A -> Prop) : keeps Q (fun _ => @OutOfFuel T A). Proof. intros w _. exact I. Qed.
Lemma k_on_throw {A} (Q : A -> Prop) (m : M T A) h : keeps Q m -> keeps (fun _ => True) h -> keeps Q (on_throw m h).
Proof.
  intros Hm Hh w Hw. unfold on_throw. specialize (Hm w Hw). destruct (m w) as [a w'|w'|w'| |]; auto.
  assert (n0 <= length (w_heap w'))%nat as Hw' by (destruct Hm; lia).
  specialize (Hh w' Hw'). destruct (h w') as [b w''|w''|w''| |]; auto.
  - destruct Hh. eapply fr_trans; eauto.
  - eapply fr_trans; eauto.
Qed.
Definition any {A} (a : A) : Prop := True.
Lemma k_tick : keeps any (@tick T).
Proof. intros w _. unfold tick. destruct (w_fuse w) as [[|k]|]; try split; try exact I; apply fr_refl. Qed.
Lemma k_load p : keeps any (@load T p).
Proof. intros w _. unfold load, lift. destruct (hread (w_heap w) p); auto; try split; try exact I; apply fr_refl. Qed.
Lemma fr_set h b x : may b -> fr h (set_nth b x h).
Proof.
  intros Hb. split; [rewrite length_set_nth; lia|]. intros b' H1 H2. apply nth_error_set_nth_ne.
  intros ->. destruct Hb; [auto|lia].
Qed.
Lemma hset_fr (h h' : heap T) p c : may (p_blk p) -> hset h p c = Some h' -> fr h h'.
Proof.
  intros Hb. unfold hset. destruct (hcell h p); [|discriminate]. destruct (hblock h (p_blk p)); [|discriminate].
  intros [= <-]. apply fr_set; auto.
Qed.
Lemma k_store p v : may (p_blk p) -> keeps any (@store T p v).
Proof.
  intros Hb w _. unfold store, hwrite. destruct (hcell (w_heap w) p) as [[c|]|]; [|exact I..].
  destruct (hset (w_heap w) p (Some v)) eqn:E; [|exact I]. split; [exact I|]. eapply hset_fr; eauto.
Qed.
Lemma k_allocate aid n : keeps (fun p => (n0 <= p_blk p)%nat) (@allocate T aid n).
Proof.
  intros w Hw. unfold allocate.
  assert (keeps any (@tick T)) as KT by apply k_tick. specialize (KT w Hw).
  destruct (tick w) as [a w1|w1|w1| |]; auto.
  destruct KT as [_ KT]. destruct ((0 <=? n) && (n <=? idx_max)); [|exact KT]. cbn. destruct KT as [K1 K2]. split.
  - lia.
  - split; [rewrite app_length; lia|]. intros b Hb HP. rewrite nth_error_app1 by lia. auto.
Qed.
Lemma k_construct d p : may (p_blk p) -> keeps any (@construct T d p).
Proof.
  intros Hb. unfold construct. apply (k_bind any); [apply k_tick|]. intros _ _ w _.
  destruct (hcell (w_heap w) p) as [[c|]|]; [exact I| |exact I].
  destruct (hset (w_heap w) p (Some d)) eqn:E; [|exact I]. split; [exact I|]. eapply hset_fr; eauto.
Qed.
Lemma k_destroy p : may (p_blk p) -> keeps any (@destroy T p).
Proof.
  intros Hb w _. unfold destroy.
  destruct (hcell (w_heap w) p) as [[c|]|]; [|exact I..].
  destruct (hset (w_heap w) p None) eqn:E; [|exact I]. split; [exact I|]. eapply hset_fr; eauto.
Qed.
Lemma k_destroy_n p : may (p_blk p) -> forall n, keeps any (@alloc_destroy_n T p n).
Proof.
  intros Hb. induction n; cbn; [apply k_ret; exact I|]. apply (k_bind any); [apply k_destroy; auto|auto].
Qed.
Lemma k_construct_loop d p : may (p_blk p) -> forall n i, keeps any (@alloc_construct_loop T d p i n).
Proof.
  intros Hb. induction n; intros i; cbn; [apply k_ret; exact I|]. apply (k_bind any); [|auto].
  apply k_on_throw; [apply k_construct; auto|apply k_destroy_n; auto].
Qed.
Lemma k_elem_assign q p : may (p_blk q) -> keeps any (@elem_assign T q p).
Proof.
  intros Hb. unfold elem_assign. apply (k_bind any); [apply k_load|]. intros v _.
  apply (k_bind any); [apply k_tick|]. intros _ _. apply k_store; auto.
Qed.

(** access stays inside of the block *)
Lemma access_n_blk chk i a b : access_n chk i a = Ok b -> p_blk (nd_org b) = p_blk (nd_org a).
Proof.
  unfold access_n. destruct (nd_ext a) as [|e [|e' es]]; try discriminate.
  destruct (nd_str a); try discriminate. destruct (nd_base a); try discriminate. intros H.
  oinv H. oinv H. inversion H; subst. reflexivity.
Qed.
Lemma access_one_blk chk i a p : access_one chk i a = Ok p -> p_blk p = p_blk (nd_org a).
Proof.
  unfold access_one. destruct (nd_ext a) as [|e [|e' es]]; try discriminate.
  destruct (nd_str a) as [|s [|]]; try discriminate. destruct (nd_base a) as [|b0 [|]]; try discriminate. intros H.
  oinv H. oinv H. inversion H; subst. reflexivity.
Qed.

Lemma it_inc_blk i j : it_inc i = Ok j -> it_base j = it_base i.
Proof. unfold it_inc. intros H. oinv H. inversion H; subst. reflexivity. Qed.
Lemma it_dec_blk i j : it_dec i = Ok j -> it_base j = it_base i.
Proof. unfold it_dec. intros H. oinv H. inversion H; subst. reflexivity. Qed.
Lemma it_advance_blk i k j : it_advance i k = Ok j -> it_base j = it_base i.
Proof. unfold it_advance. intros H. oinv H. inversion H; subst. reflexivity. Qed.
Lemma nd_begin_blk a i : nd_begin a = Ok i -> it_base i = nd_org a.
Proof. unfold nd_begin. destruct (nd_base a); [discriminate|]. intros [= <-]. reflexivity. Qed.
Lemma nd_end_blk a i : nd_end a = Ok i -> it_base i = nd_org a.
Proof.
  unfold nd_end. destruct (nd_base a); [discriminate|]. destruct (nd_ext a); [discriminate|].
  intros H. oinv H. inversion H; subst. reflexivity.
Qed.

Lemma k_copy_loop body : (forall f r, may (p_blk (it_base r)) -> keeps any (body f r)) ->
  forall n f l r, may (p_blk (it_base r)) -> keeps any (@copy_loop T body n f l r).
Proof.
  intros Hbody. induction n; intros f l r Hr; cbn.
  - destruct (it_equal f l); [apply k_ret; exact I|apply k_fuel].
  - destruct (it_equal f l); [apply k_ret; exact I|].
    apply (k_bind any); [apply Hbody; auto|]. intros _ _.
    apply (k_bind any); [apply k_lift; intros; exact I|]. intros f' _.
    apply (k_bind (fun r' => it_base r' = it_base r)); [apply k_lift; apply it_inc_blk|]. intros r' Hr'.
    apply IHn. rewrite Hr'. auto.
Qed.
Lemma k_copy_rows rec chk k d s : (forall d s, may (p_blk (nd_org d)) -> keeps any (rec d s)) ->
  may (p_blk (nd_org d)) -> keeps any (@copy_rows T rec chk k d s).
Proof.
  intros Hrec Hd. unfold copy_rows.
  apply (k_bind any); [apply k_lift; intros; exact I|]. intros f _.
  apply (k_bind any); [apply k_lift; intros; exact I|]. intros l _.
  apply (k_bind (fun r => it_base r = nd_org d)); [apply k_lift; apply nd_begin_blk|]. intros r Hr.
  apply k_copy_loop; [|rewrite Hr; auto]. intros f0 r0 Hr0. destruct k.
  - apply (k_bind any); [apply k_lift; intros; exact I|]. intros p _.
    apply (k_bind (fun q => p_blk q = p_blk (it_base r0))); [apply k_lift; intros q; apply access_one_blk|].
    intros q Hq. apply k_elem_assign. rewrite Hq. auto.
  - apply (k_bind any); [apply k_lift; intros; exact I|]. intros p _.
    apply (k_bind (fun q => p_blk (nd_org q) = p_blk (it_base r0))); [apply k_lift; intros q; apply access_n_blk|].
    intros q Hq. apply Hrec. rewrite Hq. auto.
Qed.
Lemma k_assign_nd chk : forall n d s, may (p_blk (nd_org d)) -> keeps any (@assign_nd T chk n d s).
Proof.
  induction n; intros d s Hd; [apply k_undef|]. cbn [assign_nd].
  apply (k_bind any); [apply k_lift; intros; exact I|]. intros _ _. apply k_copy_rows; auto.
Qed.
Lemma k_std_copy chk n d s : may (p_blk (nd_org d)) -> keeps any (@std_copy_nd T chk n d s).
Proof.
  intros Hd. destruct n; [apply k_undef|]. cbn [std_copy_nd]. apply k_copy_rows; auto. apply k_assign_nd.
Qed.
Lemma k_assign_loop num : forall l p k, may (p_blk p) -> keeps any (@assign_loop T p l k num).
Proof.
  induction l as [|v l IH]; intros p k Hp; cbn; [apply k_ret; exact I|].
  destruct (k <? num); [|apply k_ret; exact I].
  apply (k_bind any); [apply k_tick|]. intros _ _.
  apply (k_bind any); [apply k_store; auto|]. intros _ _. apply IH. auto.
Qed.
Lemma k_cr_assign c l : may (p_blk (cr_base c)) -> keeps any (@cr_assign T c l).
Proof. intros H. apply k_assign_loop; auto. Qed.
Lemma k_space d c aid : keeps (fun m => (n0 <= p_blk (cr_base (ma_ref m)))%nat) (@allocate_space T d c aid).
Proof.
  unfold allocate_space. apply (k_bind (fun p => (n0 <= p_blk p)%nat)); [apply k_allocate|]. intros p Hp.
  apply (k_bind any); [apply k_construct_loop; right; auto|]. intros _ _. apply k_ret. exact Hp.
Qed.
Lemma k_convert d chk a so aid : keeps (fun m => (n0 <= p_blk (cr_base (ma_ref m)))%nat) (@ma_convert T d chk a so aid).
Proof.
  unfold ma_convert. apply (k_bind any); [apply k_lift; intros; exact I|]. intros c _.
  apply (k_bind (fun m => (n0 <= p_blk (cr_base (ma_ref m)))%nat)); [apply k_space|]. intros m Hm.
  apply (k_bind any); [apply k_std_copy; right; exact Hm|]. intros _ _. apply k_ret. auto.
Qed.

(** * Steps on values keep to the block *)
Lemma value_nd_blk v a : value_nd v = Some a -> p_blk (nd_org a) = block_of v.
Proof. destruct v; cbn; intros [= <-]; reflexivity. Qed.
Lemma access_value_blk chk i a v : access_value chk i a = Ok v -> block_of v = p_blk (nd_org a).
Proof.
  unfold access_value. destruct (nd_ext a) as [|e [|e' es]]; intros H; oinv H; inversion H; subst; cbn;
    (eapply access_n_blk || eapply access_one_blk); eauto.
Qed.
Lemma run_member_blk chk m v v' : run_member chk m v = Ok v' -> block_of v' = block_of v.
Proof.
  unfold run_member. destruct (value_nd v) as [a|] eqn:E; [|discriminate].
  rewrite <- (value_nd_blk v a E). destruct m; intros H.
  - eapply access_value_blk; eauto.
  - oinv H. inversion H; subst. cbn. unfold access_element in E0. oinv E0. oinv E0. inversion E0; subst. reflexivity.
  - oinv H. inversion H; subst. cbn. unfold make_view in E0. oinv E0. destruct v1 as [[p ext] str].
    unfold generate_array_view in E1. destruct (Nat.eqb _ _); [|discriminate].
    oinv E1. oinv E1. oinv E1. oinv E1. inversion E1; subst.
    unfold view_make in E0. oinv E0. oinv E0. inversion E0; subst. reflexivity.
  - oinv H. inversion H; subst. cbn. now rewrite (nd_begin_blk _ _ E0).
  - oinv H. inversion H; subst. cbn. now rewrite (nd_end_blk _ _ E0).
  - oinv H. inversion H; subst. cbn. unfold nd_rbegin in E0. oinv E0. inversion E0; subst. cbn.
    now rewrite (nd_end_blk _ _ E1).
  - oinv H. inversion H; subst. cbn. unfold nd_rend in E0. oinv E0. inversion E0; subst. cbn.
    now rewrite (nd_begin_blk _ _ E1).
  - inversion H; subst. reflexivity.
  - destruct v; try discriminate; inversion H; subst; cbn in E; inversion E; subst; reflexivity.
Qed.
Lemma run_op_blk chk o v v' : run_op chk o v = Ok v' -> block_of v' = block_of v.
Proof.
  destruct o as [m| |k| |k| | | | | |c|q].
  - apply run_member_blk.
  - destruct v; cbn; try discriminate; intros H.
    + rewrite (access_value_blk _ _ _ _ H). reflexivity.
    + oinv H. rewrite (access_value_blk _ _ _ _ H). cbn. now rewrite (it_dec_blk _ _ E).
    + inversion H; subst; reflexivity.
  - destruct v; cbn; try discriminate; intros H.
    + oinv H. rewrite (access_value_blk _ _ _ _ H). cbn. now rewrite (it_advance_blk _ _ _ E).
    + oinv H. oinv H. rewrite (access_value_blk _ _ _ _ H). cbn. rewrite (it_dec_blk _ _ E0).
      unfold ri_advance in E. oinv E. oinv E. inversion E; subst. cbn. now rewrite (it_advance_blk _ _ _ E2).
    + inversion H; subst; reflexivity.
  - destruct v; cbn; try discriminate; intros H. rewrite (access_value_blk _ _ _ _ H). reflexivity.
  - destruct v; cbn; try discriminate; intros H.
    + oinv H. inversion H; subst. cbn. now rewrite (it_advance_blk _ _ _ E).
    + oinv H. inversion H; subst. cbn. unfold ri_advance in E. oinv E. oinv E. inversion E; subst. cbn.
      now rewrite (it_advance_blk _ _ _ E1).
    + inversion H; subst; reflexivity.
  - destruct v; cbn; try discriminate; intros H; inversion H; subst; reflexivity.
  - destruct v; cbn; try discriminate; intros H; inversion H; subst; reflexivity.
  - destruct v; cbn; try discriminate; intros H; inversion H; subst; reflexivity.
  - cbn. intros [= <-]. reflexivity.
  - destruct v; cbn; intros [= <-]; reflexivity.
  - destruct v; cbn; intros [= <-]; reflexivity.
  - cbn. intros [= <-]. reflexivity.
Qed.

(** * Programs *)

(** values of types that are not read-only point into blocks that may change *)
Definition sound (ts : list typ) (vs : list value) : Prop :=
  length ts = length vs /\
  forall k t v, nth_error ts k = Some t -> nth_error vs k = Some v -> read_only t = false -> may (block_of v).

Lemma sound_push ts vs t v : sound ts vs -> (read_only t = false -> may (block_of v)) -> sound (ts ++ [t]) (vs ++ [v]).
Proof.
  intros [HL HS] H. split; [rewrite !app_length; cbn; lia|]. intros k t' v' Ht Hv HR.
  destruct (Nat.lt_ge_cases k (length ts)) as [Hk|Hk].
  - rewrite nth_error_app1 in Ht by lia. rewrite nth_error_app1 in Hv by lia. eapply HS; eauto.
  - rewrite nth_error_app2 in Ht by lia. rewrite nth_error_app2 in Hv by lia. rewrite <- HL in Hv.
    destruct (k - length ts)%nat as [|[|]]; cbn in *; try discriminate. inversion Ht; inversion Hv; subst; auto.
Qed.

Lemma modifiable_not_read_only t w : modifier_ok t w = true -> changes_elements w = true -> read_only t = false.
Proof.
  intros H1 H2. destruct (read_only t) eqn:E; auto. rewrite (read_only_not_modifiable t w E H2) in H1. discriminate.
Qed.

Variable dflt : T.
Lemma k_statement chk s ts ts' vs : sound ts vs -> statement_types ts s = Some ts' ->
  match s with CLet x o => match nth_error ts x with Some t => loophole t o = false | None => True end | _ => True end ->
  keeps (fun vs' => sound ts' vs') (@run_statement T dflt chk vs s).
Proof.
  intros HS HT HL. pose proof HS as [_ HM]. destruct s as [x o|x so|x|x e|x y|x y|x l]; cbn in HT |- *.
  - destruct (nth_error ts x) as [t|] eqn:Et; [|discriminate].
    destruct (op_type t o) as [t'|] eqn:Eo; [|discriminate]. inversion HT; subst.
    destruct (nth_error vs x) as [v|] eqn:Ev; [|apply k_undef].
    apply (k_bind (fun v' => block_of v' = block_of v)); [apply k_lift; intros a; apply run_op_blk|].
    intros v' Hv'. apply k_ret. apply sound_push; auto. intros HR. rewrite Hv'.
    apply (HM x t v Et Ev). destruct (read_only t) eqn:E; auto.
    rewrite (read_only_step t o t' E HL Eo) in HR. discriminate.
  - destruct (nth_error ts x) as [[c n k|p n|p n|k|p]|] eqn:Et; try discriminate. inversion HT; subst.
    destruct (nth_error vs x) as [v|] eqn:Ev; [|apply k_undef]. destruct (value_nd v); [|apply k_undef].
    apply (k_bind (fun m => (n0 <= p_blk (cr_base (ma_ref m)))%nat)); [apply k_convert|]. intros m Hm.
    apply k_ret. apply sound_push; auto. intros _. right. exact Hm.
  - destruct (nth_error ts x) as [[c n k|p n|p n|k|p]|] eqn:Et; try discriminate. inversion HT; subst.
    destruct (nth_error vs x) as [[]|]; try apply k_undef.
    apply (k_bind any); [apply k_load|]. intros _ _. apply k_ret. exact HS.
  - destruct (nth_error ts x) as [t|] eqn:Et; [|discriminate].
    destruct (modifier_ok t WElement) eqn:Em; [|discriminate]. inversion HT; subst.
    destruct (nth_error vs x) as [[]|] eqn:Ev; try apply k_undef.
    apply (k_bind any); [apply k_tick|]. intros _ _.
    apply (k_bind any); [apply k_store|]. { exact (HM x t _ Et Ev (modifiable_not_read_only _ _ Em eq_refl)). }
    intros _ _. apply k_ret. exact HS.
  - destruct (nth_error ts x) as [t|] eqn:Et; [|discriminate].
    destruct (nth_error ts y) as [[]|] eqn:Ey; try discriminate.
    destruct (modifier_ok t WElement) eqn:Em; [|discriminate]. inversion HT; subst.
    destruct (nth_error vs x) as [[]|] eqn:Ev; try apply k_undef.
    destruct (nth_error vs y) as [[]|]; try apply k_undef.
    apply (k_bind any); [apply k_elem_assign|]. { exact (HM x t _ Et Ev (modifiable_not_read_only _ _ Em eq_refl)). }
    intros _ _. apply k_ret. exact HS.
  - destruct (nth_error ts x) as [t|] eqn:Et; [|discriminate].
    destruct (nth_error ts y) as [u|] eqn:Ey; [|discriminate].
    destruct (modifier_ok t WArray && is_obj u && Nat.eqb (dims t) (dims u)) eqn:Em; [|discriminate].
    apply andb_prop in Em. destruct Em as [Em _]. apply andb_prop in Em. destruct Em as [Em _]. inversion HT; subst.
    destruct (nth_error vs x) as [v|] eqn:Ev; [|apply k_undef].
    destruct (nth_error vs y) as [u'|]; [|apply k_undef].
    destruct (value_nd v) as [a|] eqn:Ea; [|apply k_undef]. destruct (value_nd u') as [b|]; [|apply k_undef].
    apply (k_bind any); [apply k_assign_nd|].
    { rewrite (value_nd_blk v a Ea). exact (HM x t _ Et Ev (modifiable_not_read_only _ _ Em eq_refl)). }
    intros _ _. apply k_ret. exact HS.
  - destruct (nth_error ts x) as [t|] eqn:Et; [|discriminate].
    destruct (modifier_ok t WRange) eqn:Em; [|discriminate]. inversion HT; subst.
    destruct (nth_error vs x) as [[]|] eqn:Ev; try apply k_undef;
      (apply (k_bind any); [apply k_cr_assign; exact (HM x t _ Et Ev (modifiable_not_read_only _ _ Em eq_refl))|];
       intros _ _; apply k_ret; exact HS).
Qed.

Lemma k_program chk : forall p ts ts' vs, sound ts vs -> program_types ts p = Some ts' ->
  program_without_loophole ts p = true -> keeps (fun vs' => sound ts' vs') (@run_program T dflt chk vs p).
Proof.
  induction p as [|s p IH]; intros ts ts' vs HS HT HL; cbn in *.
  - inversion HT; subst. apply k_ret. exact HS.
  - destruct (statement_types ts s) as [ts1|] eqn:E1; [|discriminate].
    apply andb_prop in HL. destruct HL as [HL1 HL2].
    apply (k_bind (fun vs' => sound ts1 vs')).
    + apply (k_statement chk s ts ts1 vs HS E1). destruct s; auto.
      destruct (nth_error ts x) as [t|]; auto. now apply negb_true_iff.
    + intros vs' HS'. apply (IH ts1 ts' vs'); auto.
Qed.
End Frame.
