(** ParView.v -- the memory as each of several threads knows it *)

From Coq Require Import ZArith List Bool Lia.
From Verif Require Import Base StorageOrder Ranges Layout Access Objects Memory Ops MultiArray History Threads Concur.
From Verif Require Import Spec ReachSpec MemSpec OwnSpec HistorySpec CostSpec ConcurSpec ParSpec.
From Verif Require Import Facts LayoutProofs AccessProofs ViewProofs ReachProofs MemoryProofs HistoryProofs ConcurProofs FootProofs InterProofs ParProofs ParInter.
Import ListNotations.
Local Open Scope Z_scope.

Section Views.
Context {T : Type}.
Variable lot : nat -> nat -> option nat.
Variable en0 : env.
Variable lim : nat.
Notation given := (given lot en0).

(** block b, as thread i knows it and as it is *)
Definition cells_known (i b : nat) (c d : @block T) : Prop :=
  b_alloc c = b_alloc d /\ length (b_cells c) = length (b_cells d) /\
  forall q x y, nth_error (b_cells c) q = Some x -> nth_error (b_cells d) q = Some y ->
    (x = None <-> y = None) /\ ((forall j, given b q j -> j = i) -> x = y).
(** the memory g that thread i knows, and the memory H there is *)
Definition knows (i : nat) (own : list (option nat)) (g H : heap T) : Prop :=
  length own = length H /\ length g = length H /\
  (forall b, nth_error own b = Some (Some i) -> nth_error g b = nth_error H b) /\
  (forall b j, nth_error own b = Some (Some j) -> j <> i -> nth_error g b = Some None) /\
  (forall b, nth_error own b = Some None ->
     match nth_error g b, nth_error H b with
     | Some (Some c), Some (Some d) => cells_known i b c d
     | Some None, Some None => True
     | _, _ => False
     end).

Lemma cells_known_refl i b c : cells_known i b c c.
Proof. split; [auto|]. split; [auto|]. intros q x y H1 H2. rewrite H1 in H2. injection H2 as ->. tauto. Qed.
Lemma knows_start i (h : heap T) : knows i (repeat None (length h)) h h.
Proof.
  split; [apply repeat_length|]. split; [auto|].
  assert (E : forall b t, nth_error (repeat (@None nat) (length h)) b = Some t -> t = None /\ (b < length h)%nat).
  { intros b t Hb. split; [apply nth_error_In, repeat_spec in Hb; auto|].
    rewrite <- (repeat_length (@None nat) (length h)). apply nth_error_Some. congruence. }
  split; [auto|]. split; [intros b j Hb; apply E in Hb; destruct Hb; discriminate|].
  intros b Hb. apply E in Hb. destruct Hb as [_ Hb]. apply nth_error_Some in Hb. destruct (nth_error h b) as [[c|]|]; auto.
  apply cells_known_refl.
Qed.

Lemma knows_block i own g H b : knows i own g H -> nth_error own b = Some (Some i) -> hblock H b = hblock g b.
Proof. intros (_ & _ & A & _) Hb. unfold hblock. now rewrite A. Qed.
Lemma knows_cell i own g H p : knows i own g H -> nth_error own (p_blk p) = Some (Some i) -> hcell H p = hcell g p.
Proof. intros HK Hb. unfold hcell. now rewrite (knows_block _ _ _ _ _ HK Hb). Qed.
Lemma knows_shared i own g H p x : knows i own g H -> nth_error own (p_blk p) = Some None -> hcell g p = Some x ->
  exists y, hcell H p = Some y /\ (x = None <-> y = None) /\ ((forall j, given (p_blk p) (Z.to_nat (p_off p)) j -> j = i) -> x = y).
Proof.
  intros (_ & _ & _ & _ & A) Hb. specialize (A _ Hb). unfold hcell, hblock.
  destruct (nth_error g (p_blk p)) as [[c|]|]; try discriminate. destruct (nth_error H (p_blk p)) as [[d|]|]; try contradiction.
  destruct A as (_ & L & A). destruct (p_off p <? 0); [discriminate|]. intros Hx.
  assert (HL : (Z.to_nat (p_off p) < length (b_cells d))%nat) by (rewrite <- L; apply nth_error_Some; congruence).
  apply nth_error_Some in HL. destruct (nth_error (b_cells d) (Z.to_nat (p_off p))) as [y|] eqn:Ey; [|congruence].
  exists y. split; [auto|]. exact (A _ _ _ Hx Ey).
Qed.

Lemma lt_some {A} (l : list A) b : (b < length l)%nat -> exists x, nth_error l b = Some x.
Proof. intros H. apply nth_error_Some in H. destruct (nth_error l b); [eauto|congruence]. Qed.
Lemma knows_set_mine i own g H b x : knows i own g H -> nth_error own b = Some (Some i) -> knows i own (set_nth b x g) (set_nth b x H).
Proof.
  intros (L1 & L2 & A & B & C) Hb. unfold knows. rewrite !length_set_nth. split; [auto|]. split; [auto|].
  assert (Lb : (b < length H)%nat) by (rewrite <- L1; apply nth_error_Some; congruence). split; [|split].
  - intros b' Hb'. destruct (Nat.eq_dec b' b) as [->|N]; [rewrite !nth_error_set_nth_eq by lia; auto|].
    rewrite !nth_error_set_nth_ne by auto. auto.
  - intros b' j Hb' Nj. destruct (Nat.eq_dec b' b) as [->|N]; [congruence|]. rewrite !nth_error_set_nth_ne by auto. eauto.
  - intros b' Hb'. destruct (Nat.eq_dec b' b) as [->|N]; [congruence|]. rewrite !nth_error_set_nth_ne by auto. apply C. auto.
Qed.
Lemma knows_set_other i j own g H b x : i <> j -> knows j own g H -> nth_error own b = Some (Some i) -> knows j own g (set_nth b x H).
Proof.
  intros N (L1 & L2 & A & B & C) Hb. unfold knows. rewrite !length_set_nth. split; [auto|]. split; [auto|]. split; [|split].
  - intros b' Hb'. rewrite nth_error_set_nth_ne by congruence. auto.
  - auto.
  - intros b' Hb'. rewrite nth_error_set_nth_ne by congruence. apply C. auto.
Qed.
Lemma knows_app_mine i own g H x : knows i own g H -> knows i (own ++ [Some i]) (g ++ [x]) (H ++ [x]).
Proof.
  intros (L1 & L2 & A & B & C). unfold knows. rewrite !app_length. cbn [length]. split; [lia|]. split; [lia|].
  assert (D : forall b t, nth_error (own ++ [Some i]) b = Some t -> (b < length H)%nat /\ nth_error own b = Some t \/ b = length H /\ t = Some i).
  { intros b t Hb. destruct (Nat.lt_ge_cases b (length own)) as [L|L]; [left; rewrite nth_error_app1 in Hb by auto; split; [lia|auto]|].
    rewrite nth_error_app2 in Hb by auto. destruct (b - length own)%nat as [|[|]] eqn:Eb; cbn in Hb; [|discriminate|discriminate].
    right. split; [lia|congruence]. }
  split; [|split].
  - intros b Hb. destruct (D _ _ Hb) as [[Lb Hb']|[-> _]]; [rewrite !nth_error_app1 by lia; auto|].
    rewrite !nth_error_app2 by lia. now rewrite L2.
  - intros b j Hb N. destruct (D _ _ Hb) as [[Lb Hb']|[_ E]]; [|congruence]. rewrite nth_error_app1 by lia. eauto.
  - intros b Hb. destruct (D _ _ Hb) as [[Lb Hb']|[_ E]]; [|congruence]. rewrite !nth_error_app1 by lia. apply C. auto.
Qed.
Lemma knows_app_other i j own g H x : i <> j -> knows j own g H -> knows j (own ++ [Some i]) (g ++ [None]) (H ++ [x]).
Proof.
  intros N (L1 & L2 & A & B & C). unfold knows. rewrite !app_length. cbn [length]. split; [lia|]. split; [lia|].
  assert (D : forall b t, nth_error (own ++ [Some i]) b = Some t -> (b < length H)%nat /\ nth_error own b = Some t \/ b = length H /\ t = Some i).
  { intros b t Hb. destruct (Nat.lt_ge_cases b (length own)) as [L|L]; [left; rewrite nth_error_app1 in Hb by auto; split; [lia|auto]|].
    rewrite nth_error_app2 in Hb by auto. destruct (b - length own)%nat as [|[|]] eqn:Eb; cbn in Hb; [|discriminate|discriminate].
    right. split; [lia|congruence]. }
  split; [|split].
  - intros b Hb. destruct (D _ _ Hb) as [[Lb Hb']|[_ E]]; [|congruence]. rewrite !nth_error_app1 by lia. auto.
  - intros b j' Hb Nj. destruct (D _ _ Hb) as [[Lb Hb']|[-> E]]; [rewrite nth_error_app1 by lia; eauto|].
    rewrite nth_error_app2 by lia. rewrite L2, Nat.sub_diag. reflexivity.
  - intros b Hb. destruct (D _ _ Hb) as [[Lb Hb']|[_ E]]; [|congruence]. rewrite !nth_error_app1 by lia. apply C. auto.
Qed.

(** writing an element of a shared array *)
Lemma hset_at (h : heap T) p c h' : hset h p c = Some h' -> exists k, nth_error h (p_blk p) = Some (Some k) /\ 0 <= p_off p /\
  (Z.to_nat (p_off p) < length (b_cells k))%nat /\
  h' = set_nth (p_blk p) (Some (Block (b_alloc k) (set_nth (Z.to_nat (p_off p)) c (b_cells k)))) h.
Proof.
  unfold hset. destruct (hcell h p) as [x|] eqn:Ec; [|discriminate]. destruct (hcell_inv _ _ _ Ec) as (k & Hk & Ho & Hn). rewrite Hk. intros [= <-].
  exists k. unfold hblock in Hk. destruct (nth_error h (p_blk p)) as [[k'|]|]; try discriminate. injection Hk as ->.
  split; [auto|]. split; [lia|]. split; [lia|auto].
Qed.
Lemma knows_write i own g H p v g' : (forall b q j j', given b q j -> given b q j' -> j = j') ->
  knows i own g H -> nth_error own (p_blk p) = Some None -> given (p_blk p) (Z.to_nat (p_off p)) i -> hwrite g p v = Ok g' ->
  exists H', hwrite H p v = Ok H' /\ knows i own g' H' /\ (forall j gj, j <> i -> knows j own gj H -> knows j own gj H') /\
    length H' = length H /\ (forall q, hcell H' q = if ptr_eqb p q then Some (Some v) else hcell H q).
Proof.
  intros Hfun HK Hb Hg Hw. unfold hwrite in *. destruct (hcell g p) as [[x|]|] eqn:Eg; try discriminate.
  destruct (knows_shared _ _ _ _ _ _ HK Hb Eg) as (y & Ey & Hn & _). rewrite Ey.
  destruct y as [y|]; [|exfalso; destruct Hn as [_ Hn]; specialize (Hn eq_refl); discriminate].
  destruct (hset g p (Some v)) as [g1|] eqn:Es; [|discriminate]. injection Hw as <-.
  destruct (hset_spec H p (Some v) _ Ey) as (H' & EH & _ & HC & _). rewrite EH. exists H'. split; [auto|].
  destruct (hset_at _ _ _ _ Es) as (c & Ec & Ho & Lc & ->). destruct (hset_at _ _ _ _ EH) as (d & Ed & _ & Ld & ->).
  assert (Lg : (p_blk p < length g)%nat) by (apply nth_error_Some; congruence).
  assert (LH : (p_blk p < length H)%nat) by (apply nth_error_Some; congruence).
  split; [|split; [|split; [apply length_set_nth|exact HC]]].
  - destruct HK as (L1 & L2 & A & B & C). unfold knows. rewrite !length_set_nth. split; [auto|]. split; [auto|]. split; [|split].
    + intros b Hb'. rewrite !nth_error_set_nth_ne by congruence. auto.
    + intros b j Hb' N. rewrite !nth_error_set_nth_ne by congruence. eauto.
    + intros b Hb'. destruct (Nat.eq_dec b (p_blk p)) as [->|N]; [|rewrite !nth_error_set_nth_ne by auto; apply C; auto].
      rewrite !nth_error_set_nth_eq by auto. specialize (C _ Hb'). rewrite Ec, Ed in C. destruct C as (C1 & C2 & C3).
      split; [exact C1|]. cbn [b_cells]. rewrite !length_set_nth. split; [auto|]. intros q x1 y1.
      destruct (Nat.eq_dec q (Z.to_nat (p_off p))) as [->|Nq].
      * rewrite !nth_error_set_nth_eq by auto. intros [= <-] [= <-]. tauto.
      * rewrite !nth_error_set_nth_ne by auto. apply C3.
  - intros j gj N (L1 & L2 & A & B & C). unfold knows. rewrite !length_set_nth. split; [auto|]. split; [auto|]. split; [|split].
    + intros b Hb'. rewrite !nth_error_set_nth_ne by congruence. auto.
    + auto.
    + intros b Hb'. destruct (Nat.eq_dec b (p_blk p)) as [->|Nb]; [|rewrite !nth_error_set_nth_ne by auto; apply C; auto].
      rewrite !nth_error_set_nth_eq by auto. specialize (C _ Hb'). rewrite Ed in C. destruct (nth_error gj (p_blk p)) as [[c2|]|]; try contradiction.
      destruct C as (C1 & C2 & C3). split; [exact C1|]. cbn [b_cells]. rewrite !length_set_nth. split; [auto|]. intros q x1 y1.
      destruct (Nat.eq_dec q (Z.to_nat (p_off p))) as [->|Nq]; [|rewrite !nth_error_set_nth_ne by auto; apply C3].
      rewrite nth_error_set_nth_eq by auto. intros Hx [= <-].
      assert (Ey' : nth_error (b_cells d) (Z.to_nat (p_off p)) = Some (Some y)).
      { unfold hcell, hblock in Ey. rewrite Ed in Ey. destruct (p_off p <? 0); [discriminate|auto]. }
      destruct (C3 _ _ _ Hx Ey') as [D1 _]. split; [split; [intros ->; destruct D1 as [D1 _]; specialize (D1 eq_refl); discriminate|discriminate]|].
      intros D2. exfalso. apply N. symmetry. apply D2. exact Hg.
Qed.

(** one step of thread i, known to thread i and to the others *)
Hypothesis Hfun : forall b q j j', given b q j -> given b q j' -> j = j'.
Hypothesis Hblk : forall b q j, given b q j -> (b < lim)%nat.

Lemma wq_step {A} (m : job T A) i own g H f P Q QT : knows i own g H ->
  wq (may_read lot en0 lim i) (may_write lot en0 i) P m g f Q QT ->
  (forall b, P b -> nth_error own b = Some (Some i)) -> (forall b, (b < lim)%nat -> nth_error own b = Some None) ->
  match m with JRet _ | JThrow => True | _ => exists m' H' f', job_step m H f = Some (m', H', f') end /\
  forall m' H' f', job_step m H f = Some (m', H', f') -> exists P' own' g',
    knows i own' g' H' /\ wq (may_read lot en0 lim i) (may_write lot en0 i) P' m' g' f' Q QT /\
    (forall b, P' b -> nth_error own' b = Some (Some i)) /\
    (forall j gj, j <> i -> knows j own gj H -> knows j own' gj H' \/ knows j own' (gj ++ [None]) H') /\
    (forall b t, nth_error own b = Some t -> nth_error own' b = Some t) /\
    (forall p, (p_blk p < lim)%nat -> ~ may_write lot en0 i p -> hcell H' p = hcell H p).
Proof.
  intros HK HW HP HC. pose proof HK as (L1 & L2 & KA & KB & KC).
  assert (SAME : forall m' f', wq (may_read lot en0 lim i) (may_write lot en0 i) P m' g f' Q QT -> exists P' own' g',
    knows i own' g' H /\ wq (may_read lot en0 lim i) (may_write lot en0 i) P' m' g' f' Q QT /\
    (forall b, P' b -> nth_error own' b = Some (Some i)) /\
    (forall j gj, j <> i -> knows j own gj H -> knows j own' gj H \/ knows j own' (gj ++ [None]) H) /\
    (forall b t, nth_error own b = Some t -> nth_error own' b = Some t) /\
    (forall p, (p_blk p < lim)%nat -> ~ may_write lot en0 i p -> hcell H p = hcell H p)).
  { intros m' f' HW'. exists P, own, g. repeat (split; [solve [auto]|]). auto. }
  assert (SET : forall b x m' f', P b -> wq (may_read lot en0 lim i) (may_write lot en0 i) P m' (set_nth b x g) f' Q QT -> exists P' own' g',
    knows i own' g' (set_nth b x H) /\ wq (may_read lot en0 lim i) (may_write lot en0 i) P' m' g' f' Q QT /\
    (forall b, P' b -> nth_error own' b = Some (Some i)) /\
    (forall j gj, j <> i -> knows j own gj H -> knows j own' gj (set_nth b x H) \/ knows j own' (gj ++ [None]) (set_nth b x H)) /\
    (forall b t, nth_error own b = Some t -> nth_error own' b = Some t) /\
    (forall p, (p_blk p < lim)%nat -> ~ may_write lot en0 i p -> hcell (set_nth b x H) p = hcell H p)).
  { intros b x m' f' Hb HW'. pose proof (HP _ Hb) as Ob. exists P, own, (set_nth b x g). split; [apply knows_set_mine; auto|].
    split; [auto|]. split; [auto|]. split; [intros j gj N HKj; left; eapply knows_set_other; eauto|]. split; [auto|].
    intros p Hp _. pose proof (HC _ Hp). unfold hcell, hblock. rewrite nth_error_set_nth_ne by congruence. auto. }
  destruct m as [a| | | | |f0 m|gg bb|p k|p v m|aid n k|aid p n m|p v m|p m]; cbn [wq job_step] in *; try contradiction.
  - split; [auto|]. discriminate.
  - split; [auto|]. discriminate.
  - split; [eauto|]. intros m' H' f' [= <- <- <-]. auto.
  - destruct f as [[|j]|]; (split; [eauto|]); intros m' H' f' [= <- <- <-]; auto.
  - destruct HW as [Hr HW]. destruct (hread g p) as [v| |] eqn:ER; try contradiction.
    assert (ER' : hread H p = Ok v).
    { unfold hread in *. destruct (hcell g p) as [[x|]|] eqn:Eg; try discriminate. injection ER as ->.
      destruct Hr as [Hr|[Hl Hr]].
      - rewrite (knows_cell _ _ _ _ _ HK (HP _ Hr)), Eg. auto.
      - destruct (knows_shared _ _ _ _ _ _ HK (HC _ Hl) Eg) as (y & -> & _ & E). rewrite <- (E Hr). auto. }
    rewrite ER'. split; [eauto|]. intros m' H' f' [= <- <- <-]. auto.
  - destruct HW as [Hr HW]. destruct (hwrite g p v) as [g'| |] eqn:EW; try contradiction. destruct Hr as [Hr|Hr].
    + unfold hwrite in *. rewrite (knows_cell _ _ _ _ _ HK (HP _ Hr)). destruct (hcell g p) as [[x|]|] eqn:Eg; try discriminate.
      unfold hset in *. rewrite (knows_cell _ _ _ _ _ HK (HP _ Hr)), (knows_block _ _ _ _ _ HK (HP _ Hr)), Eg in *.
      destruct (hblock g (p_blk p)) as [c|]; try discriminate. injection EW as <-.
      split; [eauto|]. intros m' H' f' [= <- <- <-]. auto.
    + destruct (knows_write i own g H p v g' Hfun HK (HC _ (Hblk _ _ _ Hr)) Hr EW) as (H1 & -> & K1 & K2 & K3 & K4).
      split; [eauto|]. intros m' H' f' [= <- <- <-]. exists P, own, g'. repeat (split; [solve [auto]|]).
      intros q Hq Nq. rewrite K4. destruct (ptr_eqb p q) eqn:Eq; [|auto]. apply ptr_eqb_eq in Eq. subst q. contradiction.
  - split; [eauto|]. intros m' H' f' [= <- <- <-]. specialize (HW O). cbn [pad repeat] in HW. rewrite app_nil_r, Nat.add_0_r in HW.
    rewrite L2 in HW. exists (fun b => P b \/ b = length H), (own ++ [Some i]), (g ++ [Some (Block aid (repeat None n))]).
    split; [apply knows_app_mine; auto|]. split; [exact HW|].
    assert (HL : forall b t, nth_error own b = Some t -> (b < length own)%nat) by (intros b t Hb; apply nth_error_Some; congruence).
    split.
    { intros b [Hb|Hb]; [rewrite nth_error_app1; auto; eapply HL; eauto|].
      subst b. rewrite nth_error_app2 by lia. replace (length H - length own)%nat with O by lia. reflexivity. }
    split; [intros j gj N HKj; right; apply knows_app_other; auto|].
    split; [intros b t Hb; rewrite nth_error_app1; eauto|]. intros p Hp _. unfold hcell, hblock.
    rewrite nth_error_app1; auto. rewrite <- L1. eapply HL. eauto.
  - destruct HW as [Pb HW]. unfold deallocate in *. cbn [w_heap w_fuse] in *. rewrite (knows_block _ _ _ _ _ HK (HP _ Pb)).
    destruct (hblock g (p_blk p)) as [c|] eqn:EB; try contradiction. destruct (_ && _); try contradiction. cbn [w_heap] in *.
    split; [eauto|]. intros m' H' f' [= <- <- <-]. auto.
  - destruct HW as [Pb HW]. unfold hset in *. rewrite (knows_cell _ _ _ _ _ HK (HP _ Pb)), (knows_block _ _ _ _ _ HK (HP _ Pb)).
    destruct (hcell g p) as [[c|]|] eqn:EC; try contradiction. destruct (hblock g (p_blk p)) as [c|]; try contradiction.
    split; [eauto|]. intros m' H' f' [= <- <- <-]. auto.
  - destruct HW as [Pb HW]. unfold destroy, hset in *. cbn [w_heap w_fuse] in *. rewrite (knows_cell _ _ _ _ _ HK (HP _ Pb)), (knows_block _ _ _ _ _ HK (HP _ Pb)).
    destruct (hcell g p) as [[c|]|] eqn:EC; try contradiction. destruct (hblock g (p_blk p)) as [c1|]; try contradiction. cbn [w_heap] in *.
    split; [eauto|]. intros m' H' f' [= <- <- <-]. auto.
Qed.
End Views.
