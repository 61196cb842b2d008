(** Facts.v -- arithmetic and list lemmas used by the proofs. *)

From Coq Require Import ZArith List Bool Permutation Lia.
From Verif Require Import Base StorageOrder Spec.
Import ListNotations.
Local Open Scope Z_scope.

Global Arguments sum : simpl never.
Global Arguments prod : simpl never.

Lemma max_index_eq : max_index = idx_max. Proof. reflexivity. Qed.

Ltac unconst := unfold max_index, idx_max, idx_min, two63, two64 in *.

(** * Machine integers *)

Lemma in_index_iff z : in_index z = true <-> idx_min <= z <= idx_max.
Proof. unfold in_index. rewrite andb_true_iff, !Z.leb_le. tauto. Qed.

Lemma signed_ok z : idx_min <= z <= idx_max -> signed z = Ok z.
Proof. intros H. unfold signed. apply in_index_iff in H. rewrite H. reflexivity. Qed.
Lemma signed_inv z r : signed z = Ok r -> r = z /\ idx_min <= z <= idx_max.
Proof.
  unfold signed. destruct (in_index z) eqn:E; [|discriminate].
  intros H; inversion H; subst. apply in_index_iff in E. auto.
Qed.
Lemma signed_bad z : ~ (idx_min <= z <= idx_max) -> signed z = UB.
Proof.
  intros H. unfold signed. destruct (in_index z) eqn:E; [|reflexivity].
  apply in_index_iff in E. tauto.
Qed.
Lemma sadd_ok a b : idx_min <= a + b <= idx_max -> sadd a b = Ok (a + b).
Proof. apply signed_ok. Qed.
Lemma ssub_ok a b : idx_min <= a - b <= idx_max -> ssub a b = Ok (a - b).
Proof. apply signed_ok. Qed.
Lemma smul_ok a b : idx_min <= a * b <= idx_max -> smul a b = Ok (a * b).
Proof. apply signed_ok. Qed.
Lemma sdiv_ok a b : b <> 0 -> idx_min <= Z.quot a b <= idx_max -> sdiv a b = Ok (Z.quot a b).
Proof.
  intros H H'. unfold sdiv. destruct (b =? 0) eqn:E; [apply Z.eqb_eq in E; lia|].
  apply signed_ok; auto.
Qed.

Lemma to_size_small z : 0 <= z < two64 -> to_size z = z.
Proof. apply Z.mod_small. Qed.
Lemma to_size_range z : 0 <= to_size z < two64.
Proof. apply Z.mod_pos_bound. reflexivity. Qed.
Lemma to_index_small z : idx_min <= z <= idx_max -> to_index z = z.
Proof.
  intros H. unfold to_index. rewrite Z.mod_small; unconst; lia.
Qed.
Lemma to_index_range z : idx_min <= to_index z <= idx_max.
Proof.
  unfold to_index. pose proof (Z.mod_pos_bound (z + two63) two64 eq_refl). unconst; lia.
Qed.
Lemma to_index_cong a b : a mod two64 = b mod two64 -> to_index a = to_index b.
Proof.
  intros H. unfold to_index.
  rewrite (Z.add_mod a), (Z.add_mod b), H by (unconst; lia). reflexivity.
Qed.
Lemma to_index_mod z : to_index z mod two64 = z mod two64.
Proof.
  unfold to_index. rewrite Zminus_mod_idemp_l. f_equal. lia.
Qed.
Lemma to_size_mod z : to_size z mod two64 = z mod two64.
Proof. unfold to_size. apply Z.mod_mod. unconst; lia. Qed.
Lemma to_size_cong a b : a mod two64 = b mod two64 -> to_size a = to_size b.
Proof. auto. Qed.
Lemma to_index_to_size z : to_index (to_size z) = to_index z.
Proof. apply to_index_cong, to_size_mod. Qed.

(** * lists *)

Lemma length_set_nth {A} n (x : A) l : length (set_nth n x l) = length l.
Proof. revert n; induction l as [|y l IH]; intros [|n]; simpl; auto. Qed.
Lemma nth_error_set_nth_eq {A} n (x : A) l :
  (n < length l)%nat -> nth_error (set_nth n x l) n = Some x.
Proof. revert n; induction l as [|y l IH]; intros [|n] H; simpl in *; try lia; auto. apply IH; lia. Qed.
Lemma nth_error_set_nth_ne {A} n m (x : A) l :
  n <> m -> nth_error (set_nth n x l) m = nth_error l m.
Proof. revert n m; induction l as [|y l IH]; intros [|n] [|m] H; simpl in *; auto; try lia. Qed.
Lemma set_nth_same {A} n (x : A) l : nth_error l n = Some x -> set_nth n x l = l.
Proof.
  revert n; induction l as [|y l IH]; intros [|n] H; simpl in *; try discriminate.
  - inversion H; auto.
  - f_equal; auto.
Qed.
Lemma set_nth_set_nth {A} n (x y : A) l : set_nth n x (set_nth n y l) = set_nth n x l.
Proof. revert n; induction l as [|z l IH]; intros [|n]; simpl; auto. f_equal; auto. Qed.
Lemma nth_set_nth_eq {A} n (x d : A) l : (n < length l)%nat -> nth n (set_nth n x l) d = x.
Proof. revert n; induction l as [|y l IH]; intros [|n] H; simpl in *; try lia; auto. apply IH; lia. Qed.
Lemma nth_set_nth_ne {A} n m (x d : A) l : n <> m -> nth m (set_nth n x l) d = nth m l d.
Proof. revert n m; induction l as [|y l IH]; intros [|n] [|m] H; simpl in *; auto; try lia. Qed.
Lemma set_nth_out {A} n (x : A) l : (length l <= n)%nat -> set_nth n x l = l.
Proof. revert n; induction l as [|y l IH]; intros [|n] H; simpl in *; auto; try lia. f_equal; apply IH; lia. Qed.

Lemma Forall2_length {A B} (R : A -> B -> Prop) l l' : Forall2 R l l' -> length l = length l'.
Proof. induction 1; simpl; auto. Qed.

Lemma list_eqb_eq a b : list_eqb a b = true <-> a = b.
Proof.
  revert b; induction a as [|x a IH]; intros [|y b]; simpl; try (split; congruence).
  rewrite andb_true_iff, Z.eqb_eq, IH. split; [intros [-> ->]; auto | intros H; inversion H; auto].
Qed.
Lemma list_eqb_refl a : list_eqb a a = true.
Proof. apply list_eqb_eq; auto. Qed.
Lemma list_eqb_neq a b : a <> b -> list_eqb a b = false.
Proof. intros H. destruct (list_eqb a b) eqn:E; auto. apply list_eqb_eq in E. tauto. Qed.
Lemma nats_eqb_eq a b : nats_eqb a b = true <-> a = b.
Proof.
  revert b; induction a as [|x a IH]; intros [|y b]; simpl; try (split; congruence).
  rewrite andb_true_iff, Nat.eqb_eq, IH. split; [intros [-> ->]; auto | intros H; inversion H; auto].
Qed.
Lemma bools_eqb_eq a b : bools_eqb a b = true <-> a = b.
Proof.
  revert b; induction a as [|x a IH]; intros [|y b]; simpl; try (split; congruence).
  rewrite andb_true_iff, eqb_true_iff, IH. split; [intros [-> ->]; auto | intros H; inversion H; auto].
Qed.

Lemma copy_n_all {A} (l : list A) : copy_n l (length l) = Ok l.
Proof. induction l as [|x l IH]; simpl; auto. rewrite IH; auto. Qed.
Lemma copy_n_firstn {A} (l : list A) n : (n <= length l)%nat -> copy_n l n = Ok (firstn n l).
Proof.
  revert n; induction l as [|x l IH]; intros [|n] H; simpl in *; auto; try lia.
  rewrite IH by lia. auto.
Qed.
Lemma copy_n_short {A} (l : list A) n : (length l < n)%nat -> copy_n l n = UB.
Proof.
  revert n; induction l as [|x l IH]; intros [|n] H; simpl in *; auto; try lia.
  rewrite IH by lia. auto.
Qed.
Lemma copy_into_full {A} (d s : list A) : length d = length s -> copy_into d s = Ok s.
Proof.
  revert d; induction s as [|x s IH]; intros [|y d] H; simpl in *; auto; try lia.
  rewrite IH by lia; auto.
Qed.

Lemma prod_cons x l : prod (x :: l) = x * prod l. Proof. reflexivity. Qed.
Lemma prod_nil : prod [] = 1. Proof. reflexivity. Qed.
Lemma prod_app a b : prod (a ++ b) = prod a * prod b.
Proof. induction a as [|x a IH]; simpl app; rewrite ?prod_cons, ?prod_nil; [lia|]. rewrite IH. ring. Qed.
Lemma sum_cons x l : sum (x :: l) = x + sum l. Proof. reflexivity. Qed.
Lemma sum_app a b : sum (a ++ b) = sum a + sum b.
Proof. induction a as [|x a IH]; simpl app; rewrite ?sum_cons; [reflexivity|]. rewrite IH. lia. Qed.

Lemma sum_perm a b : Permutation a b -> sum a = sum b.
Proof. induction 1; rewrite ?sum_cons in *; lia. Qed.
Lemma prod_perm a b : Permutation a b -> prod a = prod b.
Proof. induction 1; rewrite ?prod_cons in *; try lia. Qed.

Lemma prod_nonneg l : Forall (fun e => 0 <= e) l -> 0 <= prod l.
Proof. induction 1; rewrite ?prod_cons; [unfold prod; simpl; lia|]. nia. Qed.
Lemma prod_max1_pos l : 1 <= prod (map (Z.max 1) l).
Proof.
  induction l as [|x l IH]; simpl map; rewrite ?prod_cons; [unfold prod; simpl; lia|].
  pose proof (Z.le_max_l 1 x). generalize dependent (Z.max 1 x). intros; nia.
Qed.
Lemma prod_le_max1 l : Forall (fun e => 0 <= e) l -> prod l <= prod (map (Z.max 1) l).
Proof.
  induction 1 as [|x l Hx Hl IH]; simpl map; rewrite ?prod_cons; [lia|].
  pose proof (prod_nonneg _ Hl). pose proof (prod_max1_pos l).
  pose proof (Z.le_max_l 1 x). pose proof (Z.le_max_r 1 x).
  generalize dependent (Z.max 1 x). intros; nia.
Qed.
Lemma In_le_prod_max1 x l : In x l -> x <= prod (map (Z.max 1) l).
Proof.
  induction l as [|y l IH]; simpl map; rewrite ?prod_cons; intros H; [easy|].
  pose proof (prod_max1_pos l). 
  pose proof (Z.le_max_l 1 y). pose proof (Z.le_max_r 1 y).
  generalize dependent (Z.max 1 y). intros m Hm1 Hm2.
  destruct H as [->|H]; [nia|]. specialize (IH H). nia.
Qed.

(** * accumulate *)
Lemma acc_mul_mod l a : fold_left (fun acc e => to_size (acc * e)) l a mod two64 = (a * prod l) mod two64.
Proof.
  revert a; induction l as [|x l IH]; intros a; simpl fold_left.
  - unfold prod; simpl. f_equal. lia.
  - rewrite IH, prod_cons. unfold to_size. rewrite Z.mul_mod_idemp_l by (unconst; lia). f_equal. ring.
Qed.
Lemma acc_mul_range l : forall a, 0 <= a < two64 -> 0 <= fold_left (fun acc e => to_size (acc * e)) l a < two64.
Proof.
  induction l as [|x l IH]; intros a H; simpl; auto. apply IH. apply to_size_range.
Qed.
Lemma accumulate_mul_mod l : accumulate_mul l = prod l mod two64.
Proof.
  unfold accumulate_mul. pose proof (acc_mul_mod l 1) as H. rewrite Z.mul_1_l in H.
  pose proof (acc_mul_range l 1 ltac:(unconst; lia)) as R.
  rewrite <- H. symmetry. apply Z.mod_small; auto.
Qed.
Lemma accumulate_mul_small l : 0 <= prod l < two64 -> accumulate_mul l = prod l.
Proof. intros H. rewrite accumulate_mul_mod. apply Z.mod_small; auto. Qed.

(** * dot products *)

Lemma map_nth_seq {A} (l : list A) d : map (fun k => nth k l d) (seq 0 (length l)) = l.
Proof.
  induction l as [|x l IH]; simpl; auto. f_equal. rewrite <- seq_shift, map_map. apply IH.
Qed.

Lemma dot_seq a b : length a = length b ->
  dot a b = sum (map (fun d => nth d a 0 * nth d b 0) (seq 0 (length a))).
Proof.
  revert b; induction a as [|x a IH]; intros [|y b] H; simpl in *; try lia; auto.
  rewrite sum_cons, <- seq_shift, map_map. rewrite IH by lia. reflexivity.
Qed.

Lemma sum_map_add {A} (f g : A -> Z) l : sum (map (fun x => f x + g x) l) = sum (map f l) + sum (map g l).
Proof. induction l; simpl; rewrite ?sum_cons; [reflexivity|lia]. Qed.
Lemma sum_map_mul {A} c (g : A -> Z) l : sum (map (fun x => c * g x) l) = c * sum (map g l).
Proof. induction l; simpl; rewrite ?sum_cons; [unfold sum; simpl; lia|]. rewrite IHl. ring. Qed.
Lemma sum_map_opp {A} (g : A -> Z) l : sum (map (fun x => - g x) l) = - sum (map g l).
Proof. induction l; simpl; rewrite ?sum_cons; [reflexivity|]. rewrite IHl. ring. Qed.
Lemma sum_map_le {A} (f g : A -> Z) l : (forall x, In x l -> f x <= g x) -> sum (map f l) <= sum (map g l).
Proof.
  induction l as [|x l IH]; intros H; simpl; rewrite ?sum_cons; [lia|].
  pose proof (H x (or_introl eq_refl)). specialize (IH (fun y Hy => H y (or_intror Hy))). lia.
Qed.

(** * in_bounds, zseq, tuples *)
Lemma in_bounds_length bs es i : in_bounds bs es i -> length bs = length es /\ length i = length es.
Proof.
  revert es i; induction bs as [|b bs IH]; intros [|e es] [|k i]; simpl; try tauto.
  intros [_ H]. apply IH in H. lia.
Qed.
Lemma in_bounds_nth bs es i : length bs = length es -> length i = length es ->
  (in_bounds bs es i <-> forall d, (d < length es)%nat -> nth d bs 0 <= nth d i 0 < nth d bs 0 + nth d es 0).
Proof.
  revert es i; induction bs as [|b bs IH]; intros [|e es] [|k i] H H'; simpl in *; try lia.
  - split; auto. intros _ d Hd; lia.
  - rewrite IH by lia. split.
    + intros [A B] [|d] Hd; auto. apply B; lia.
    + intros A. split; [apply (A 0%nat); lia|]. intros d Hd; apply (A (S d)); lia.
Qed.
Lemma length_zseq b n : length (zseq b n) = n.
Proof. unfold zseq. rewrite map_length, seq_length; auto. Qed.
Lemma in_zseq b n k : In k (zseq b n) <-> b <= k < b + Z.of_nat n.
Proof.
  unfold zseq. rewrite in_map_iff. setoid_rewrite in_seq. split.
  - intros (x & <- & H). lia.
  - intros H. exists (Z.to_nat (k - b)). lia.
Qed.
Lemma zseq_S b n : zseq b (S n) = b :: zseq (b + 1) n.
Proof.
  unfold zseq. rewrite <- cons_seq, <- seq_shift. simpl. f_equal; [lia|].
  rewrite map_map. apply map_ext; intros; lia.
Qed.
Lemma zseq_snoc b n : zseq b (S n) = zseq b n ++ [b + Z.of_nat n].
Proof. unfold zseq. rewrite seq_S, map_app. reflexivity. Qed.
Lemma nodup_zseq b n : NoDup (zseq b n).
Proof.
  revert b; induction n as [|n IH]; intros b; [constructor|].
  rewrite zseq_S. constructor; auto. rewrite in_zseq. lia.
Qed.
Lemma in_tuples bs es i : length bs = length es -> (In i (tuples bs es) <-> in_bounds bs es i).
Proof.
  revert es i; induction bs as [|b bs IH]; intros [|e es] i H; simpl in *; try lia.
  - destruct i; simpl; split; auto; try tauto. intros [|[]]; congruence.
  - rewrite in_flat_map. split.
    + intros (k & Hk & Hi). apply in_map_iff in Hi. destruct Hi as (j & <- & Hj).
      apply in_zseq in Hk. apply IH in Hj; [|lia]. split; auto; lia.
    + destruct i as [|k i]; [tauto|]. intros [Hk Hi]. exists k. rewrite in_zseq. split; [lia|].
      apply in_map. apply IH; auto; lia.
Qed.
Lemma NoDup_app_intro {A} (l1 l2 : list A) :
  NoDup l1 -> NoDup l2 -> (forall x, In x l1 -> ~ In x l2) -> NoDup (l1 ++ l2).
Proof.
  induction 1 as [|x l Hx Hl IH]; simpl; auto. intros H2 H. constructor.
  - rewrite in_app_iff. intros [|]; auto. eapply H; eauto.
  - apply IH; auto.
Qed.
Lemma nodup_tuples bs es : NoDup (tuples bs es).
Proof.
  revert es; induction bs as [|b bs IH]; intros [|e es]; simpl; try (constructor; [easy|constructor]).
  assert (H : forall l, NoDup l -> NoDup (flat_map (fun k => map (cons k) (tuples bs es)) l)).
  { induction l as [|k l IHl]; intros Hl; simpl; [constructor|].
    inversion Hl as [|k' l' Hk Hl']; subst. apply NoDup_app_intro.
    - apply FinFun.Injective_map_NoDup; [|apply IH]. intros x y E; congruence.
    - apply IHl; auto.
    - intros x Hx. apply in_map_iff in Hx. destruct Hx as (y & <- & _).
      rewrite in_flat_map. intros (k' & Hk' & Hx). apply in_map_iff in Hx.
      destruct Hx as (z & E & _). inversion E; subst. auto. }
  apply H, nodup_zseq.
Qed.
Lemma length_flat_map_const {A B} (f : A -> list B) l m :
  (forall x, In x l -> length (f x) = m) -> length (flat_map f l) = (length l * m)%nat.
Proof.
  induction l as [|x l IH]; intros H; simpl; auto.
  rewrite app_length, IH by (intros; apply H; right; auto). rewrite H by (left; auto). auto.
Qed.
Lemma length_tuples bs es : length bs = length es -> Forall (fun e => 0 <= e) es ->
  Z.of_nat (length (tuples bs es)) = prod es.
Proof.
  revert es; induction bs as [|b bs IH]; intros [|e es] H F; simpl in *; try lia; auto.
  inversion F; subst. rewrite prod_cons, <- IH by (auto; lia).
  rewrite (length_flat_map_const _ _ (length (tuples bs es))).
  - rewrite length_zseq. lia.
  - intros; apply map_length.
Qed.

Lemma length_tuples_bases : forall es bs bs',
  length bs = length es -> length bs' = length es ->
  length (tuples bs es) = length (tuples bs' es).
Proof.
  induction es as [|e es IH]; intros [|b bs] [|b' bs'] H1 H2; simpl in *; try discriminate; auto.
  rewrite (length_flat_map_const _ _ (length (tuples bs es))) by (intros; apply map_length).
  rewrite (length_flat_map_const _ _ (length (tuples bs' es))) by (intros; apply map_length).
  rewrite !length_zseq, (IH bs bs') by lia. reflexivity.
Qed.

Lemma nodup_map_inj {A B} (f : A -> B) l :
  (forall x y, In x l -> In y l -> f x = f y -> x = y) -> NoDup l -> NoDup (map f l).
Proof.
  intros H. induction 1 as [|x l Hx Hl IH]; simpl; constructor.
  - intros Hin. apply in_map_iff in Hin. destruct Hin as (y & E & Hy).
    apply H in E; simpl; auto. subst. auto.
  - apply IH. intros; apply H; simpl; auto.
Qed.

Lemma NoDup_app_inv {A} (l1 l2 : list A) : NoDup (l1 ++ l2) ->
  NoDup l1 /\ NoDup l2 /\ (forall x, In x l1 -> ~ In x l2).
Proof.
  induction l1 as [|y l1 IH]; simpl; intros H.
  - split; [constructor|]. split; auto.
  - inversion H as [|? ? Hy Hr]; subst. destruct (IH Hr) as (N1 & N2 & D). split; [|split; auto].
    + constructor; auto. intros Hi. apply Hy. apply in_or_app; auto.
    + intros x [->|Hx]; auto. intros Hi. apply Hy. apply in_or_app; auto.
Qed.
