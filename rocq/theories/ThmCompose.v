(** ThmCompose.v -- C36: views of views *)

From Coq Require Import ZArith List Bool Permutation Lia.
From Verif Require Import Base StorageOrder Ranges Layout Access Objects Spec ViewSpec ReachSpec
  Facts LayoutProofs AccessProofs ViewProofs CopyProofs ReachProofs ThmAddressing ThmViews.
Import ListNotations.
Local Open Scope Z_scope.

(** * the single range that selects s0, s0+sd, ..., s0+(n-1)*sd *)
Definition mk_range (b n s0 sd : Z) : index_range :=
  if n =? 0 then ir_make b b 1
  else let sd' := if n =? 1 then 1 else sd in
       ir_make s0 (s0 + (n - 1) * sd' + Z.sgn sd') sd'.

Fixpoint comp (bases shape : list Z) (rs1 rs2 : list index_range) : list index_range :=
  match bases, shape, rs1 with
  | b :: bs, e :: es, r1 :: rs1' =>
      let s1 := range_start r1 b in
      if ir_degenerate r1 then IRange s1 (s1 + 1) 1 true :: comp bs es rs1' rs2
      else match rs2 with
           | r2 :: rs2' =>
               let len1 := vlen s1 (range_finish r1 b e) (ir_stride r1) in
               let st2 := range_start r2 0 in
               let k := s1 + st2 * ir_stride r1 in
               (if ir_degenerate r2 then IRange k (k + 1) 1 true
                else mk_range b (vlen st2 (range_finish r2 0 len1) (ir_stride r2)) k
                              (ir_stride r1 * ir_stride r2)) :: comp bs es rs1' rs2'
           | [] => []
           end
  | _, _, _ => []
  end.

Lemma vlen_unique start finish stride n : stride <> 0 -> 0 <= n ->
  (forall k, 0 <= k < n <-> selected start finish stride k) -> vlen start finish stride = n.
Proof.
  intros Hs Hn H. pose proof (vlen_nonneg start finish stride Hs) as H0.
  pose proof (fun k => vlen_selected start finish stride k Hs) as HV.
  destruct (Z.lt_trichotomy (vlen start finish stride) n) as [Hlt|[Heq|Hgt]]; auto.
  - assert (0 <= vlen start finish stride < vlen start finish stride) by (apply HV, H; lia). lia.
  - assert (0 <= n < n) by (apply H, HV; lia). lia.
Qed.

Lemma single_range_facts b e s k : 0 <= e <= max_index -> - max_index - 1 <= b -> b + e <= max_index ->
  index_value s -> (Z.abs b + Z.max 0 (e - 1)) * Z.abs s <= max_index -> b <= k < b + e ->
  let r := IRange k (k + 1) 1 true in
  range_start r b = k /\ range_fits b e s r /\ range_inside b e r /\
  Z.abs (range_start r b) * Z.abs s <= (Z.abs b + Z.max 0 (e - 1)) * Z.abs s.
Proof.
  intros He Hb Hbe Hs HR Hk r.
  assert (E1 : range_start r b = k).
  { unfold r, range_start. cbn [ir_start]. destruct (Z.eqb_spec k (- max_index - 1)); lia. }
  assert (E2 : range_finish r b e = k + 1).
  { unfold r, range_finish. cbn [ir_finish]. destruct (Z.eqb_spec (k + 1) max_index); lia. }
  split; [auto|]. split; [|split].
  - unfold range_fits, accepted. rewrite E1, E2. unfold r. cbn [ir_stride ir_degenerate].
    change (1 <? 0) with false. cbv iota. unfold index_value in *.
    change (0 <? 1) with true. cbv iota.
    split; [lia|]. split; [lia|]. split; [lia|]. split; [unconst; lia|]. split; [unconst; lia|].
    split; [lia|]. discriminate.
  - unfold range_inside. unfold r at 1. cbn [ir_degenerate]. rewrite E1. auto.
  - rewrite E1. assert (Z.abs k <= Z.abs b + Z.max 0 (e - 1)) by lia. nia.
Qed.

Lemma mk_range_facts b e s n s0 sd : 0 <= e -> 2 * e <= max_index -> - max_index <= b -> b + e <= max_index ->
  index_value s -> (Z.abs b + Z.max 0 (e - 1)) * Z.abs s <= max_index ->
  0 <= n -> sd <> 0 -> (forall k, 0 <= k < n -> b <= s0 + k * sd < b + e) ->
  let r := mk_range b n s0 sd in
  ir_degenerate r = false /\
  range_fits b e s r /\ range_inside b e r /\
  vlen (range_start r b) (range_finish r b e) (ir_stride r) = n /\
  (forall k, 0 <= k < n -> range_start r b + k * ir_stride r = s0 + k * sd) /\
  Z.abs (range_start r b) * Z.abs s <= (Z.abs b + Z.max 0 (e - 1)) * Z.abs s.
Proof.
  intros He He2 Hb Hbe Hs HR Hn Hsd HI r. unfold r, mk_range.
  destruct (Z.eqb_spec n 0) as [->|Hn0].
  - clear r. set (r := ir_make b b 1).
    assert (E1 : range_start r b = b).
    { unfold r, range_start. cbn [ir_start ir_make]. destruct (Z.eqb_spec b (- max_index - 1)); lia. }
    assert (E2 : range_finish r b e = b).
    { unfold r, range_finish. cbn [ir_finish ir_make]. destruct (Z.eqb_spec b max_index); lia. }
    assert (EV : vlen (range_start r b) (range_finish r b e) (ir_stride r) = 0).
    { rewrite E1, E2. apply vlen_unique; cbn [r ir_make ir_stride]; try lia. intros k. unfold selected.
      change (0 <? 1) with true. cbv iota. lia. }
    split; [reflexivity|]. split; [|split; [|split; [exact EV|split]]].
    + unfold range_fits, accepted. rewrite E1, E2. unfold r. cbn [ir_stride ir_degenerate ir_make].
      change (1 <? 0) with false. change (0 <? 1) with true. cbv iota. unfold index_value in *.
      split; [lia|]. split; [lia|]. split; [lia|]. split; [unconst; lia|]. split; [unconst; lia|].
      split; [lia|]. intros _. rewrite Z.mul_1_l. lia.
    + apply selected_split; [|cbn; lia|reflexivity]. rewrite EV. intros; lia.
    + intros; lia.
    + rewrite E1. apply Z.mul_le_mono_nonneg_r; lia.
  - clear r. set (sd' := if n =? 1 then 1 else sd).
    assert (Hsd' : sd' <> 0) by (unfold sd'; destruct (n =? 1); lia).
    assert (H1n : n = 1 -> sd' = 1) by (intros ->; reflexivity).
    assert (HK : forall k, 0 <= k < n -> s0 + k * sd' = s0 + k * sd).
    { intros k Hk. unfold sd'. destruct (Z.eqb_spec n 1); auto. assert (k = 0) by lia. subst k. lia. }
    assert (HI' : forall k, 0 <= k < n -> b <= s0 + k * sd' < b + e).
    { intros k Hk. rewrite HK by auto. auto. }
    clearbody sd'. 
    set (fin := s0 + (n - 1) * sd' + Z.sgn sd'). set (r := ir_make s0 fin sd').
    pose proof (HI' 0 ltac:(lia)) as H0. pose proof (HI' (n - 1) ltac:(lia)) as H1.
    assert (HSG : (0 < sd' /\ Z.sgn sd' = 1) \/ (sd' < 0 /\ Z.sgn sd' = -1)).
    { destruct (Z.lt_trichotomy sd' 0) as [|[|]]; [right|lia|left]; split; auto; [apply Z.sgn_neg|apply Z.sgn_pos]; auto. }
    assert (Hfin : b - (if sd' <? 0 then 1 else 0) <= fin <= b + e - (if sd' <? 0 then 1 else 0)).
    { unfold fin. destruct (Z.ltb_spec sd' 0); lia. }
    assert (E1 : range_start r b = s0).
    { unfold r, range_start. cbn [ir_start ir_make]. destruct (Z.eqb_spec s0 (- max_index - 1)); lia. }
    assert (E2 : range_finish r b e = fin).
    { unfold r, range_finish. cbn [ir_finish ir_make]. destruct (Z.eqb_spec fin max_index); auto.
      destruct (Z.ltb_spec sd' 0); lia. }
    assert (EV : vlen (range_start r b) (range_finish r b e) (ir_stride r) = n).
    { rewrite E1, E2. cbn [r ir_make ir_stride]. apply vlen_unique; try lia. intros k. unfold selected, fin.
      destruct HSG as [[G1 G2]|[G1 G2]]; rewrite G2; destruct (Z.ltb_spec 0 sd'); try lia; split; intros K.
      - split; [lia|]. nia.
      - split; [lia|]. assert (k * sd' <= (n - 1) * sd') by lia. nia.
      - split; [lia|]. nia.
      - split; [lia|]. assert ((n - 1) * sd' <= k * sd') by lia. nia. }
    assert (HSB : n = 1 \/ Z.abs sd' <= e - 1).
    { destruct (Z.eq_dec n 1); auto. right. pose proof (HI' 1 ltac:(lia)). lia. }
    split; [reflexivity|].
    assert (HG : range_inside b e r).
    { apply selected_split; [|exact Hsd'|reflexivity]. rewrite EV, E1. cbn [r ir_make ir_stride]. auto. }
    split; [|split; [exact HG|split; [exact EV|split]]].
    + unfold range_fits, accepted. rewrite E1, E2. cbn [r ir_stride ir_degenerate ir_make].
      split; [auto|]. split; [split; [lia|exact Hfin]|]. split; [lia|].
      assert (HA : Z.abs sd' <= Z.max 1 (e - 1)) by (destruct HSB as [->|]; [rewrite H1n by auto|]; lia).
      unfold index_value in *.
      split; [unconst; lia|].
      split.
      { unfold fin. replace (if 0 <? sd' then 1 else -1) with (Z.sgn sd').
        2:{ destruct HSG as [[G1 G2]|[G1 G2]]; rewrite G2; destruct (Z.ltb_spec 0 sd'); lia. }
        unconst; lia. }
      split.
      { intros E. unfold fin. rewrite E in *. simpl Z.sgn. unconst. lia. }
      intros _. destruct HSB as [E|HSB]; [rewrite (H1n E), Z.mul_1_l; lia|].
      assert (Z.abs (sd' * s) <= max_index); [|lia].
      rewrite Z.abs_mul. eapply Z.le_trans; [|exact HR]. apply Z.mul_le_mono_nonneg_r; lia.
    + rewrite E1. cbn [r ir_stride ir_make]. exact HK.
    + rewrite E1. apply Z.mul_le_mono_nonneg_r; lia.
Qed.

(** * composing the range lists *)

Lemma comp_facts chk1 chk2 : forall bases ext str rs1 rs2,
  Forall (fun e => 0 <= e /\ 2 * e <= max_index) ext ->
  Forall2 (fun b e => - max_index <= b /\ b + e <= max_index) bases ext ->
  Forall index_value str ->
  reach bases ext str <= max_index ->
  length rs1 = length ext ->
  dims_facts chk1 bases ext str rs1 -> ranges_inside bases ext rs1 ->
  let ext1 := gav_lens bases ext rs1 in let str1 := gav_strides rs1 str in
  let z := repeat 0 (length ext1) in
  length rs2 = length ext1 ->
  dims_facts chk2 z ext1 str1 rs2 -> ranges_inside z ext1 rs2 ->
  let rs := comp bases ext rs1 rs2 in
  ranges_fit bases ext str rs /\ corner bases rs str <= reach bases ext str /\
  ranges_inside bases ext rs /\
  gav_lens bases ext rs = gav_lens z ext1 rs2 /\
  (forall t, in_bounds (repeat 0 (length (gav_lens z ext1 rs2))) (gav_lens z ext1 rs2) t ->
     source_index bases rs t = source_index bases rs1 (source_index z rs2 t)).
Proof.
  induction bases as [|b bs IH]; intros [|e es] [|s ss] [|r1 rs1] rs2 HE HB HS HR L1 D1 I1;
    cbn [dims_facts ranges_inside] in D1, I1; try tauto; try (simpl in L1; lia).
  - cbn. intros L2 D2 I2. split; [auto|]. split; [lia|]. split; [auto|]. split; [auto|]. auto.
  - inversion HE as [|? ? [He He2] HE']; subst. inversion HB as [|? ? ? ? [Hb Hbe] HB']; subst.
    inversion HS as [|? ? Hs HS']; subst.
    destruct D1 as [(Hs1 & _) D1]. destruct I1 as [I1 I1'].
    cbn [reach] in HR.
    assert (HR0 : 0 <= reach bs es ss).
    { clear. revert es ss. induction bs as [|b bs IH]; intros [|e es] [|s ss]; cbn [reach]; try lia.
      specialize (IH es ss). nia. }
    assert (HR1 : 0 <= (Z.abs b + Z.max 0 (e - 1)) * Z.abs s) by (apply Z.mul_nonneg_nonneg; lia).
    assert (HRs : (Z.abs b + Z.max 0 (e - 1)) * Z.abs s <= max_index) by lia.
    cbn [gav_lens gav_strides comp].
    destruct (ir_degenerate r1) eqn:Hd1.
    + cbv zeta. intros L2 D2 I2.
      destruct (IH es ss rs1 rs2 HE' HB' HS' ltac:(lia) ltac:(simpl in L1; lia) D1 I1' L2 D2 I2)
        as (F1 & F2 & F3 & F4 & F5).
      unfold range_inside in I1. rewrite Hd1 in I1.
      destruct (single_range_facts b e s (range_start r1 b) ltac:(unconst; lia) ltac:(unconst; lia) ltac:(lia) Hs HRs I1)
        as (G1 & G2 & G3 & G4).
      cbv zeta in G1, G2, G3, G4.
      set (r := IRange (range_start r1 b) (range_start r1 b + 1) 1 true) in *.
      cbn [ranges_fit corner reach ranges_inside gav_lens source_index]. 
      change (ir_degenerate r) with true. rewrite Hd1. cbv iota.
      split; [auto|]. split; [lia|]. split; [auto|]. split; [auto|].
      intros t Ht. rewrite G1. f_equal. auto.
    + cbn [length repeat]. cbv zeta. intros L2 D2 I2.
      destruct rs2 as [|r2 rs2]; [simpl in L2; lia|].
      cbn [dims_facts ranges_inside] in D2, I2.
      set (s1 := range_start r1 b) in *. set (len1 := vlen s1 (range_finish r1 b e) (ir_stride r1)) in *.
      destruct D2 as [(Hs2 & _) D2]. destruct I2 as [I2 I2'].
      destruct (IH es ss rs1 rs2 HE' HB' HS' ltac:(lia) ltac:(simpl in L1; lia) D1 I1' ltac:(simpl in L2; lia) D2 I2')
        as (F1 & F2 & F3 & F4 & F5).
      cbn [gav_lens].
      unfold range_inside in I1. rewrite Hd1 in I1.
      assert (I1k : forall k, 0 <= k < len1 -> b <= s1 + k * ir_stride r1 < b + e).
      { intros k Hk. apply I1. apply vlen_selected; auto. }
      unfold range_inside in I2.
      destruct (ir_degenerate r2) eqn:Hd2.
      * assert (Hk : b <= s1 + range_start r2 0 * ir_stride r1 < b + e) by (apply I1k; lia).
        destruct (single_range_facts b e s _ ltac:(unconst; lia) ltac:(unconst; lia) ltac:(lia) Hs HRs Hk)
          as (G1 & G2 & G3 & G4).
        cbv zeta in G1, G2, G3, G4.
        set (r := IRange (s1 + range_start r2 0 * ir_stride r1) (s1 + range_start r2 0 * ir_stride r1 + 1) 1 true) in *.
        cbn [ranges_fit corner reach ranges_inside gav_lens source_index].
        change (ir_degenerate r) with true. rewrite ?Hd1, ?Hd2. cbv iota.
        split; [auto|]. split; [lia|]. split; [auto|]. split; [auto|].
        intros t Ht. rewrite G1. fold s1. f_equal. auto.
      * set (st2 := range_start r2 0) in *. set (n := vlen st2 (range_finish r2 0 len1) (ir_stride r2)) in *.
        assert (Hn : 0 <= n) by (apply vlen_nonneg; auto).
        assert (I2k : forall k, 0 <= k < n -> 0 <= st2 + k * ir_stride r2 < len1).
        { intros k Hk. assert (0 <= st2 + k * ir_stride r2 < 0 + len1); [|lia]. apply I2. apply vlen_selected; auto. }
        destruct (mk_range_facts b e s n (s1 + st2 * ir_stride r1) (ir_stride r1 * ir_stride r2) He He2 Hb Hbe Hs HRs Hn)
          as (G0 & G1 & G2 & G3 & G4 & G5).
        { nia. }
        { intros k Hk. specialize (I1k _ (I2k k Hk)). lia. }
        cbv zeta in G0, G1, G2, G3, G4, G5.
        set (r := mk_range b n (s1 + st2 * ir_stride r1) (ir_stride r1 * ir_stride r2)) in *.
        cbn [ranges_fit corner reach ranges_inside gav_lens source_index].
        rewrite G0, ?Hd1, ?Hd2. cbv iota.
        split; [auto|]. split; [lia|]. split; [auto|]. split; [f_equal; auto|].
        intros [|k t] Ht; cbn [length repeat in_bounds] in Ht; [tauto|]. destruct Ht as [Hk Ht].
        fold s1. fold st2. f_equal; [|auto]. rewrite G4 by lia. lia.
Qed.

Definition to_arg (r : index_range) : ig_arg := if ir_degenerate r then AIndex (ir_start r) else ARange r.

Lemma comp_args chk1 : forall bases ext str rs1 rs2,
  Forall2 (fun b e => - max_index <= b /\ b + e <= max_index) bases ext ->
  dims_facts chk1 bases ext str rs1 -> ranges_inside bases ext rs1 ->
  ranges_inside (repeat 0 (length (gav_lens bases ext rs1))) (gav_lens bases ext rs1) rs2 ->
  let rs := comp bases ext rs1 rs2 in
  map arg_range (map to_arg rs) = rs /\
  length (filter is_range (map to_arg rs)) = length (filter (fun r => negb (ir_degenerate r)) rs) /\
  Forall (fun x => match x with AIndex k => idx_min <= k < idx_max | _ => True end) (map to_arg rs).
Proof.
  induction bases as [|b bs IH]; intros [|e es] [|s ss] [|r1 rs1] rs2 HB D1 I1;
    cbn [dims_facts ranges_inside] in D1, I1; try tauto.
  - cbn. auto.
  - inversion HB as [|? ? ? ? [Hb Hbe] HB']; subst.
    destruct D1 as [(Hs1 & _) D1]. destruct I1 as [I1 I1'].
    assert (HX : forall k rest, b <= k < b + e ->
       (map arg_range (map to_arg rest) = rest /\
        length (filter is_range (map to_arg rest)) = length (filter (fun r => negb (ir_degenerate r)) rest) /\
        Forall (fun x => match x with AIndex k => idx_min <= k < idx_max | _ => True end) (map to_arg rest)) ->
       let rs := IRange k (k + 1) 1 true :: rest in
       map arg_range (map to_arg rs) = rs /\
       length (filter is_range (map to_arg rs)) = length (filter (fun r => negb (ir_degenerate r)) rs) /\
       Forall (fun x => match x with AIndex k => idx_min <= k < idx_max | _ => True end) (map to_arg rs)).
    { intros k rest Hk (R1 & R2 & R3). cbn. rewrite R1, R2. split; [auto|]. split; [auto|].
      constructor; auto. unconst; lia. }
    cbn [gav_lens comp]. unfold range_inside in I1. destruct (ir_degenerate r1) eqn:Hd1.
    + cbv zeta. intros I2. apply HX; auto. eapply IH; eauto.
    + cbn [length repeat]. cbv zeta. intros I2. destruct rs2 as [|r2 rs2]; [cbn in I2; tauto|].
      cbn [ranges_inside] in I2. destruct I2 as [I2 I2'].
      specialize (IH es ss rs1 rs2 HB' D1 I1' I2'). cbv zeta in IH.
      unfold range_inside in I2. destruct (ir_degenerate r2) eqn:Hd2.
      * apply HX; auto. apply I1. apply vlen_selected; auto.
      * destruct IH as (R1 & R2 & R3).
        set (r := mk_range _ _ _ _).
        assert (Hr : ir_degenerate r = false) by (unfold r, mk_range; destruct (_ =? 0); reflexivity).
        assert (Ht : to_arg r = ARange r) by (unfold to_arg; rewrite Hr; reflexivity).
        cbn [map filter]. rewrite Ht, Hr. cbn [negb arg_range is_range length].
        rewrite R1, R2. split; [auto|]. split; [auto|]. constructor; auto.
Qed.

(** A view of a view is a view of the parent: given a view v1 of a and a view v2
    of v1, one index_gen applied to a directly gives a view with the shape of v2
    whose elements are the elements of v2.  (The two side conditions exclude
    index bases equal to the least index value and extents above 2^62, where the
    arithmetic on the combined range would overflow.) *)
Theorem c36_views_compose : forall c a ig1 v1 ig2 v2,
  array_object c -> derived c a ->
  Forall (fun b => - max_index <= b) (nd_base a) -> Forall (fun e => 2 * e <= max_index) (nd_ext a) ->
  built ig1 -> (0 < ig_dims ig1)%nat -> make_view true a ig1 = Ok v1 ->
  ranges_inside (nd_base a) (nd_ext a) (ig_ranges ig1) ->
  built ig2 -> (0 < ig_dims ig2)%nat -> make_view true (v_nd v1) ig2 = Ok v2 ->
  ranges_inside (v_ib v1) (v_ext v1) (ig_ranges ig2) ->
  exists ig v, built ig /\ make_view true a ig = Ok v /\
    ranges_inside (nd_base a) (nd_ext a) (ig_ranges ig) /\
    v_ib v = v_ib v2 /\ v_ext v = v_ext v2 /\
    forall chk t, in_bounds (v_ib v2) (v_ext v2) t ->
      exists p, access_element chk (v_nd v2) t = Ok p /\ access_element chk (v_nd v) t = Ok p.
Proof.
  intros c a ig1 v1 ig2 v2 Hc Ha HB HE Hb1 Hd1 E1 I1 Hb2 Hd2 E2 I2.
  pose proof (derived_ok c a Hc Ha) as Hok.
  pose proof (made_ok a ig1 v1 Hok Hb1 Hd1 E1 I1) as Hok1.
  pose proof (made_ok (v_nd v1) ig2 v2 Hok1 Hb2 Hd2 E2 I2) as Hok2.
  destruct (view_made true a ig1 v1 Hok Hb1 E1) as (L1 & V1 & D1 & K1 & K1').
  destruct (view_made true _ ig2 v2 Hok1 Hb2 E2) as (L2 & V2 & D2 & K2 & K2').
  set (rs1 := ig_ranges ig1) in *. set (rs2 := ig_ranges ig2) in *.
  pose proof Hok as (A1 & A2 & A3 & A4 & A5 & A6 & A7).
  assert (HE' : Forall (fun e => 0 <= e /\ 2 * e <= max_index) (nd_ext a)).
  { rewrite Forall_forall in *. intros x Hx. split; auto. apply A4; auto. }
  assert (HB' : Forall2 (fun b e => - max_index <= b /\ b + e <= max_index) (nd_base a) (nd_ext a)).
  { clear - A5 HB. induction A5; inversion HB; subst; constructor; auto. lia. }
  assert (G1 : v_ext v1 = gav_lens (nd_base a) (nd_ext a) rs1) by (rewrite V1; reflexivity).
  assert (G2 : v_ib v1 = repeat 0 (length (v_ext v1))) by (rewrite V1; reflexivity).
  assert (G3 : v_str v1 = gav_strides rs1 (nd_str a)) by (rewrite V1; reflexivity).
  cbn [v_nd nd_ext nd_base nd_str] in L2, D2.
  rewrite G2, G1 in I2. rewrite G1 in L2. rewrite G2, G1, G3 in D2.
  destruct (comp_facts true true (nd_base a) (nd_ext a) (nd_str a) rs1 rs2 HE' HB' A6 A7 L1 D1 I1 L2 D2 I2)
    as (F1 & F2 & F3 & F4 & F5).
  destruct (comp_args true (nd_base a) (nd_ext a) (nd_str a) rs1 rs2 HB' D1 I1 I2) as (B1 & B2 & B3).
  cbv zeta in B1, B2, B3.
  set (rs := comp (nd_base a) (nd_ext a) rs1 rs2) in *.
  pose proof (ranges_fit_length _ _ _ _ F1) as LR.
  assert (Hne : map to_arg rs <> []).
  { intros HN. apply (f_equal (@length _)) in HN. rewrite map_length in HN. simpl in HN. lia. }
  pose proof (c29_generator_records_arguments (map to_arg rs) Hne B3) as EG.
  rewrite B1 in EG. set (ig := IGen _ _ rs) in EG.
  assert (Hbuilt : built ig) by (eapply ig_build_built; [apply built_none|exact EG]).
  assert (LS : length (gav_strides rs (nd_str a)) = ig_dims ig).
  { rewrite length_gav_strides by lia. unfold ig. cbn [ig_dims]. auto. }
  assert (EV : make_view true a ig = Ok (view_of a rs)).
  { apply make_view_ok; auto; cbn [ig ig_num ig_dims ig_ranges]; try lia. rewrite map_length. auto. }
  assert (DD : dims_facts true (nd_base a) (nd_ext a) (nd_str a) rs).
  { apply ranges_fit_facts; auto; [split; auto|lia]. }
  assert (X1 : v_ext v2 = gav_lens (nd_base a) (nd_ext a) rs).
  { rewrite F4, V2. cbn [view_of v_ext v_nd nd_base nd_ext]. rewrite G2, G1. reflexivity. }
  assert (X2 : v_ib v2 = repeat 0 (length (v_ext v2))) by (rewrite V2; reflexivity).
  exists ig, (view_of a rs). split; [auto|]. split; [auto|]. split; [exact F3|].
  cbn [view_of v_ib v_ext]. rewrite X2, X1. split; [reflexivity|]. split; [reflexivity|].
  intros chk t Ht. pose proof (in_bounds_length _ _ _ Ht) as [_ Lt].
  exists (addr (v_nd v2) t). split.
  - apply access_element_ok; auto. cbn [v_nd nd_base nd_ext]. rewrite X2, X1. auto.
  - rewrite access_element_ok.
    + f_equal. rewrite (view_addr true) by auto.
      rewrite F5 by (rewrite <- F4; auto). symmetry.
      set (z := repeat 0 (length (gav_lens (nd_base a) (nd_ext a) rs1))) in *.
      assert (HI : in_bounds z (gav_lens (nd_base a) (nd_ext a) rs1) (source_index z rs2 t)).
      { eapply (source_index_in_bounds true); [|exact D2|exact I2|]; auto. rewrite <- F4. auto. }
      pose proof (view_addr true (v_nd v1) rs2 t) as Y. cbn [v_nd nd_base nd_ext nd_str] in Y.
      change (View (v_base v1) (v_origin_offset v1) (v_num v1) (v_ext v1) (v_str v1) (v_ib v1)) with v1 in Y.
      rewrite <- V2 in Y. rewrite G2, G1, G3 in Y. fold z in Y.
      rewrite Y; auto; [|rewrite <- F4; auto].
      pose proof (view_addr true a rs1 (source_index z rs2 t)) as W. rewrite <- V1 in W.
      rewrite W; auto. apply in_bounds_length in HI. lia.
    + apply (view_nd_ok true); auto.
      * apply (length_gav true); auto.
      * rewrite <- X1. lia.
    + exact Ht.
Qed.

(** the hypotheses are met: a view of a view of a 2-dimensional array *)
Example ex_c36 : exists ig1 v1 ig2 v2,
  ig_build indices [ARange (ir_make 1 3 1); ARange (ir_make 0 (-3) (-1))] = Ok ig1 /\
  make_view true (cr_nd ex_arr) ig1 = Ok v1 /\
  ig_build indices [AIndex 1; ARange (ir_make 0 3 2)] = Ok ig2 /\
  make_view true (v_nd v1) ig2 = Ok v2 /\ v_ext v2 = [2] /\
  ranges_inside (nd_base (cr_nd ex_arr)) (nd_ext (cr_nd ex_arr)) (ig_ranges ig1) /\
  ranges_inside (v_ib v1) (v_ext v1) (ig_ranges ig2) /\
  comp [1; -2] [2; 3] (ig_ranges ig1) (ig_ranges ig2) = [IRange 2 3 1 true; IRange 0 (-3) (-2) false].
Proof.
  eexists. eexists. eexists. eexists. split; [vm_compute; reflexivity|]. split; [vm_compute; reflexivity|].
  split; [vm_compute; reflexivity|]. split; [vm_compute; reflexivity|]. split; [reflexivity|].
  split; [|split; [|vm_compute; reflexivity]].
  - cbn [ig_ranges ex_arr cr_nd nd_base nd_ext cr_ib cr_ext].
    split; [|split; [|exact I]]; (apply selected_split; [|discriminate|reflexivity]); intros k Hk Hk2.
    + change (vlen _ _ _) with 2 in Hk2. change (range_start _ 1) with 1. cbn [ir_stride]. lia.
    + change (vlen _ _ _) with 3 in Hk2. change (range_start _ (-2)) with 0. cbn [ir_stride]. lia.
  - cbn [ig_ranges v_ib v_ext]. split; [|split; [|exact I]].
    + unfold range_inside. cbn. lia.
    + apply selected_split; [|discriminate|reflexivity]. intros k Hk Hk2.
      change (vlen _ _ _) with 2 in Hk2. change (range_start _ 0) with 0. cbn [ir_stride]. lia.
Qed.
