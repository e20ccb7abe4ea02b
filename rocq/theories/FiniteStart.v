(** The entries that a histogram hands to the palette search, in IEEE
    arithmetic: their colours come from pixels and their weights are moderate
    as long as the counts add up to no more than the largest image gives. *)
From Coq Require Import Reals Lra.
From Verif Require Import Base BaseFacts Arith Order Ieee IeeeFacts SmallFloat Pal World Attr Hist MedianCut Nearest Kmeans Blur ImageM Quant Remap
  SpecHist SpecImage BlurFacts ImageFacts MedianFacts SearchFacts QuantFacts NearFacts RemapFacts AttrFacts Api ApiFacts ResultFacts PalFacts FewFacts FewImage SpecFinite
  HistFacts HistIn HistWeights RealArith MedianReal KmeansReal HullReal RoundReal HullTop MedianIeee ContrastIeee AvgIeee FiniteRemap CutInv RoundInv AvgF32 WeightIeee FiniteSearch.
From Flocq Require Import IEEE754.BinarySingleNaN Core.Core.
Open Scope R_scope.

(** * Counts as floats *)
Lemma mul_val (x y : b32) : is_finite x = true -> is_finite y = true -> 0 <= B2R x * B2R y <= bpow radix2 100 ->
  is_finite (Bmult mode_NE x y : b32) = true /\ B2R (Bmult mode_NE x y : b32) = rnd32 (B2R x * B2R y).
Proof.
  intros Fx Fy H. apply (proj1 (Bmult_fin 24 128 x y Fx Fy)). apply rnd_fits with 100%Z; [lia|]. rewrite Rabs_pos_eq by lra. lra.
Qed.
Lemma rnd32_int n : (0 <= n)%Z -> exists m, rnd32 (IZR n) = IZR m.
Proof.
  intros N. destruct (Z.le_gt_cases n 16777216) as [S|L].
  - exists n. apply round_generic; [apply valid_rnd_N|]. apply (format_small_Z 24 128); lia.
  - assert (E : (0 <= cexp radix2 (SpecFloat.fexp 24 128) (IZR n))%Z).
    { unfold cexp. assert (25 <= mag radix2 (IZR n))%Z.
      { apply mag_ge_bpow. rewrite Rabs_pos_eq by (apply (IZR_le 0); auto). replace (bpow radix2 (25 - 1)) with (IZR 16777216) by (cbn; lra). apply IZR_le. lia. }
      unfold SpecFloat.fexp, SpecFloat.emin. lia. }
    unfold round. set (e := cexp _ _ _) in *. set (z := Znearest _ _). exists (z * 2 ^ e)%Z. unfold F2R. cbn [Fnum Fexp].
    rewrite mult_IZR. f_equal. rewrite <- (IZR_Zpower radix2) by auto. reflexivity.
Qed.
Lemma count_val n : (0 <= n <= U32_MAX)%Z -> exists m, is_finite (BofZ 24 128 n) = true /\ B2R (BofZ 24 128 n) = IZR m /\
  (0 <= m <= 4294967296)%Z /\ (n = 0 -> m = 0)%Z /\ (1 <= n -> 1 <= m)%Z /\ (16777216 * m <= 16777217 * n)%Z.
Proof.
  unfold U32_MAX. intros N. destruct (rnd32_int n ltac:(lia)) as [m M].
  assert (N0 : 0 <= IZR n <= IZR 4294967296) by (split; [apply (IZR_le 0)|apply IZR_le]; lia).
  assert (B : 0 <= rnd32 (IZR n) <= IZR 4294967296).
  { split; [apply rnd32_pos; lra|]. replace (IZR 4294967296) with (bpow radix2 32) in * by (cbn; lra). apply rnd32_le_bpow; [lia|lra]. }
  destruct (BofZ_fin 24 128 n) as [F V].
  { rewrite Rabs_pos_eq by lra. apply Rle_lt_trans with (1 := proj2 B). replace (IZR 4294967296) with (bpow radix2 32) by (cbn; lra). apply bpow_lt. lia. }
  exists m. split; [exact F|]. split; [rewrite V; exact M|]. rewrite M in B. destruct B as [B1 B2]. apply le_IZR in B1, B2. split; [lia|].
  assert (one : forall k : Z, (1 <= k)%Z -> 1 <= IZR k) by (intros k K; apply (IZR_le 1); auto).
  split; [|split].
  - intros ->. rewrite rnd32_0 in M. apply eq_IZR. auto.
  - intros N1. apply le_IZR. rewrite <- M. change 1 with (bpow radix2 0). apply rnd32_ge_bpow; [lia|]. apply one. auto.
  - destruct (Z.eq_dec n 0) as [->|NZ].
    + rewrite rnd32_0 in M. apply (eq_IZR 0) in M. lia.
    + apply le_IZR. rewrite !mult_IZR. rewrite <- M. pose proof (one n ltac:(lia)) as N1.
      assert (U : rnd32 (IZR n) <= IZR n * (1 + u24)) by (apply rnd32_up; apply Rle_trans with (2 := N1); change 1 with (bpow radix2 0); apply bpow_le; lia).
      unfold u24 in U. lra.
Qed.
Lemma dsum_counts l : forall s z (zs : list Z), is_finite s = true -> B2R s = IZR z -> (0 <= z)%Z ->
  Forall2 (fun x m => is_finite (x : b64) = true /\ B2R (x : b64) = IZR m /\ (0 <= m)%Z) l zs -> (z + zsum zs <= 1099511627776)%Z ->
  is_finite (fold_left (Bplus mode_NE) l s : b64) = true /\ B2R (fold_left (Bplus mode_NE) l s : b64) = IZR (z + zsum zs).
Proof.
  induction l as [|x l IH]; intros s z zs F V Z0 H B; inversion H as [|a m t ms (Fx & Vx & Mx) H']; subst; cbn [fold_left zsum].
  - rewrite Z.add_0_r. auto.
  - cbn [zsum] in B. assert (0 <= zsum ms)%Z. { clear - H'. induction H' as [|? ? ? ? (_ & _ & Q) _ IH]; cbn [zsum]; lia. }
    assert (E : rnd64 (B2R s + B2R x) = IZR (z + m)).
    { rewrite V, Vx, <- plus_IZR. apply round_generic; [apply valid_rnd_N|]. apply (format_small_Z 53 1024); lia. }
    destruct (proj1 (Bplus_fin 53 1024 s x F Fx)) as [F1 V1].
    { rewrite E. rewrite Rabs_pos_eq by (apply (IZR_le 0); lia). apply Rle_lt_trans with (bpow radix2 40); [|apply bpow_lt; lia].
      replace (bpow radix2 40) with (IZR 1099511627776) by (cbn; lra). apply IZR_le. lia. }
    rewrite Z.add_assoc. apply IH; auto; try lia. rewrite V1. exact E.
Qed.

Section I.
Variables (pow32 : b32 -> b32 -> b32) (pow64 : b64 -> b64 -> b64).
Hypothesis PU : pow32_unit pow32.
Let Ar : Arith := ieee pow32 pow64.
Local Existing Instance Ar.
Notation box := (box_px pow32 pow64).
Notation ink := (ink pow32 pow64).

(** * Colours *)
Lemma div_byte v : (0 <= v <= 255)%Z -> B2R (Bdiv mode_NE (BofZ 24 128 v) (BofZ 24 128 255) : b32) = 0 \/ bpow radix2 (-8) <= B2R (Bdiv mode_NE (BofZ 24 128 v) (BofZ 24 128 255) : b32).
Proof.
  intros V. destruct (BofZ_exact 24 128 v) as [F1 V1]; try lia. destruct (BofZ_exact 24 128 255) as [F2 V2]; try lia.
  assert (Q : 0 <= IZR v / 255 <= 1).
  { assert (0 <= IZR v <= 255) by (split; [apply (IZR_le 0)|apply (IZR_le v 255)]; lia). lra. }
  destruct (proj1 (Bdiv_fin 24 128 _ _ F1 ltac:(rewrite V2; lra))) as [F V3].
  { rewrite V1, V2. apply rnd_fits with 0%Z; [lia|]. rewrite Rabs_pos_eq by lra. cbn. lra. }
  rewrite V3, V1, V2. destruct (Z.eq_dec v 0) as [->|NZ].
  - left. replace (0 / 255) with 0 by lra. apply rnd32_0.
  - right. apply rnd32_ge_bpow; [lia|]. assert (1 <= IZR v) by (apply (IZR_le 1); lia). replace (bpow radix2 (-8)) with (/ 256) by (cbn; lra). lra.
Qed.
Lemma wa_val : is_finite (@LIQ_WEIGHT_A Ar : b32) = true /\ B2R (@LIQ_WEIGHT_A Ar : b32) = 5 / 8.
Proof.
  destruct (BofZ_exact 24 128 625) as [F1 V1]; try lia. destruct (BofZ_exact 24 128 1000) as [F2 V2]; try lia.
  assert (E : rnd32 (625 / 1000) = 5 / 8).
  { replace (625 / 1000) with (5 / 8) by lra. apply round_generic; [apply valid_rnd_N|]. apply (generic_format_FLT radix2 (-149) 24).
    exists (Float radix2 5 (-3)); [unfold F2R; cbn; lra|cbn; lia|cbn; lia]. }
  destruct (proj1 (Bdiv_fin 24 128 _ _ F1 ltac:(rewrite V2; lra))) as [F V3].
  { rewrite V1, V2, E. apply Rle_lt_trans with (bpow radix2 0); [rewrite Rabs_pos_eq by lra; cbn; lra|apply bpow_lt; lia]. }
  split; [exact F|]. change (B2R (Bdiv mode_NE (BofZ 24 128 625) (BofZ 24 128 1000) : b32) = 5 / 8). rewrite V3, V1, V2. exact E.
Qed.
Lemma nn_bounds k x : nonneg k x -> is_finite x = true /\ 0 <= B2R x <= bpow radix2 k.
Proof. intros [[F H] P]. rewrite Rabs_pos_eq in H by auto. auto. Qed.
Lemma ink_parts (sa lr lg lb : b32) wr wb : (B2R sa = 0 \/ bpow radix2 (-8) <= B2R sa) -> nonneg 0 sa -> nonneg 0 lr -> nonneg 0 lg -> nonneg 0 lb -> nonneg (-1) wr -> nonneg (-1) wb ->
  B2R (Bmult mode_NE sa (@LIQ_WEIGHT_A Ar) : b32) <= 5 / 8 /\
  B2R (Bmult mode_NE (Bmult mode_NE lr wr) sa : b32) <= B2R (Bmult mode_NE sa (@LIQ_WEIGHT_A Ar) : b32) /\
  B2R (Bmult mode_NE (Bmult mode_NE lb wb) sa : b32) <= B2R (Bmult mode_NE sa (@LIQ_WEIGHT_A Ar) : b32) /\
  B2R (Bmult mode_NE (Bmult mode_NE lg (BofZ 24 128 1)) sa : b32) <= 2 * B2R (Bmult mode_NE sa (@LIQ_WEIGHT_A Ar) : b32) /\
  (B2R (Bmult mode_NE sa (@LIQ_WEIGHT_A Ar) : b32) = 0 \/ bpow radix2 (-10) <= B2R (Bmult mode_NE sa (@LIQ_WEIGHT_A Ar) : b32)).
Proof.
  intros SA0 SA LR LG LB WR WB. destruct wa_val as [FA VA]. apply nn_bounds in SA, LR, LG, LB, WR, WB.
  destruct SA as [FS S], LR as [FR R], LG as [FG G], LB as [FB Bb], WR as [FWR R2], WB as [FWB B2].
  assert (B100 : 1 <= bpow radix2 100) by (change 1 with (bpow radix2 0); apply bpow_le; lia).
  change (bpow radix2 0) with 1 in *. replace (bpow radix2 (-1)) with (1 / 2) in * by (cbn; lra).
  assert (PR : forall x y kx ky, 0 <= x <= kx -> 0 <= y <= ky -> 0 <= x * y <= kx * ky) by (intros x y kx ky X Y; split; [apply Rmult_le_pos; lra|apply Rmult_le_compat; lra]).
  destruct (mul_val sa (@LIQ_WEIGHT_A Ar) FS FA) as [_ PA]; [rewrite VA; lra|]. rewrite VA in PA. rewrite PA.
  assert (HALF : B2R sa / 2 <= rnd32 (B2R sa * (5 / 8))).
  { destruct SA0 as [Z0|P8]; [rewrite Z0; unfold Rdiv; rewrite !Rmult_0_l, rnd32_0; lra|].
    replace (B2R sa / 2) with (rnd32 (bpow radix2 (- (1)) * B2R sa)).
    - apply rnd32_mono. replace (bpow radix2 (- (1))) with (1 / 2) by (cbn; lra). lra.
    - rewrite rnd32_scale; [|lia|apply Rle_trans with (2 := P8); apply bpow_le; lia]. rewrite rnd32_b2r. replace (bpow radix2 (- (1))) with (1 / 2) by (cbn; lra). lra. }
  assert (SIDE : forall l w : b32, is_finite l = true -> is_finite w = true -> 0 <= B2R l <= 1 -> 0 <= B2R w <= 1 / 2 ->
     B2R (Bmult mode_NE (Bmult mode_NE l w) sa : b32) <= rnd32 (B2R sa * (5 / 8))).
  { intros l w Fl Fw L W. pose proof (PR _ _ _ _ L W) as LW. destruct (mul_val l w Fl Fw) as [F1 V1]; [lra|].
    assert (M : 0 <= B2R (Bmult mode_NE l w : b32) <= 1 / 2).
    { rewrite V1. split; [apply rnd32_pos; lra|]. replace (1 / 2) with (bpow radix2 (-1)) by (cbn; lra). apply rnd32_le_bpow; [lia|]. replace (bpow radix2 (-1)) with (1 / 2) by (cbn; lra). lra. }
    pose proof (PR _ _ _ _ M S) as MS. destruct (mul_val _ sa F1 FS) as [_ V2]; [lra|]. rewrite V2. apply rnd32_mono. rewrite (Rmult_comm _ (B2R sa)).
    apply Rmult_le_compat_l; lra. }
  split; [|split; [|split; [|split]]].
  - replace (5 / 8) with (rnd32 (5 / 8)) at 2 by (rewrite <- VA; apply rnd32_b2r). apply rnd32_mono. lra.
  - apply SIDE; auto.
  - apply SIDE; auto.
  - destruct (BofZ_exact 24 128 1) as [F1 V1]; try lia. assert (ONE : 0 <= B2R (BofZ 24 128 1 : b32) <= 1) by (rewrite V1; lra). pose proof (PR _ _ _ _ G ONE) as LW.
    destruct (mul_val lg _ FG F1) as [F2 V2]; [lra|]. rewrite V1, Rmult_1_r, rnd32_b2r in V2. 
    assert (G' : 0 <= B2R (Bmult mode_NE lg (BofZ 24 128 1) : b32) <= 1) by (rewrite V2; lra).
    pose proof (PR _ _ _ _ G' S) as MS. destruct (mul_val _ sa F2 FS) as [_ V3]; [lra|]. rewrite V3.
    apply Rle_trans with (rnd32 (B2R sa)); [|rewrite rnd32_b2r; lra]. apply rnd32_mono. rewrite <- (Rmult_1_l (B2R sa)) at 2. apply Rmult_le_compat_r; lra.
  - destruct SA0 as [Z0|P8]; [left; rewrite Z0, Rmult_0_l; apply rnd32_0|right].
    apply rnd32_ge_bpow; [lia|]. replace (bpow radix2 (-8)) with (/ 256) in P8 by (cbn; lra). replace (bpow radix2 (-10)) with (/ 1024) by (cbn; lra). lra.
Qed.
Lemma pixel_ink (g : b64) c : Bltb (B754_zero false) g = true -> rgba_ok c -> ink (@from_rgba Ar (@gamma_lut Ar g) c).
Proof.
  intros G C. pose proof (pixel_box pow32 pow64 PU g c G C) as B. split; [exact B|].
  destruct C as (H1 & H2 & H3 & H4). unfold byte in *. destruct (half_w pow32 pow64) as (W1 & W2 & W3 & W4).
  assert (UN : forall x : b32, is_finite x = true /\ 0 <= B2R x <= 1 -> nonneg 0 x).
  { intros x [F H]. split; [split; auto|lra]. rewrite Rabs_pos_eq by lra. cbn. lra. }
  assert (L : forall v, (0 <= v <= 255)%Z -> nonneg 0 (@gamma_lut Ar g v)).
  { intros v V. apply UN. destruct (byte_unit v V) as [B1 B2]. apply (PU _ _ B1 B2). destruct (IG_ok pow32 pow64) as (I1 & I2 & _). apply pos_leb, conv_pos, div_pos; auto. }
  assert (SA : nonneg 0 (Bdiv mode_NE (BofZ 24 128 (ca c)) (BofZ 24 128 255))) by (apply UN, byte_unit; lia).
  exact (ink_parts _ _ _ _ _ _ (div_byte (ca c) ltac:(lia)) SA (L (cr c) ltac:(lia)) (L (cg c) ltac:(lia)) (L (cb c) ltac:(lia)) W1 W2).
Qed.

(** * Weights *)
Definition tenth : b32 := Bdiv mode_NE (BofZ 24 128 1) (BofZ 24 128 10).
Lemma tenth_val : is_finite tenth = true /\ / 16 <= B2R tenth <= 1 / 10 * (1 + u24).
Proof.
  destruct (BofZ_exact 24 128 1) as [F1 V1]; try lia. destruct (BofZ_exact 24 128 10) as [F2 V2]; try lia.
  destruct (proj1 (Bdiv_fin 24 128 _ _ F1 ltac:(rewrite V2; lra))) as [F V3].
  { rewrite V1, V2. apply rnd_fits with 0%Z; [lia|]. rewrite Rabs_pos_eq by lra. cbn. lra. }
  split; [exact F|]. unfold tenth. rewrite V3, V1, V2. split.
  - replace (/ 16) with (bpow radix2 (-4)) by (cbn; lra). apply rnd32_ge_bpow; [lia|]. replace (bpow radix2 (-4)) with (/ 16) by (cbn; lra). lra.
  - apply rnd32_up. apply Rle_trans with (bpow radix2 (-4)); [apply bpow_le; lia|]. replace (bpow radix2 (-4)) with (/ 16) by (cbn; lra). lra.
Qed.
Lemma fmt64_int z : (Z.abs z <= 9007199254740992)%Z -> rnd64 (IZR z) = IZR z.
Proof. intros H. apply round_generic; [apply valid_rnd_N|]. apply (format_small_Z 53 1024); lia. Qed.
(** [w] is 0 or at least 2^-13, and ten times as much is no more than 2^31. *)
Definition top_ok (w : b32) : Prop := is_finite w = true /\ (B2R w = 0 \/ bpow radix2 (-13) <= B2R w) /\ B2R w <= bpow radix2 31 / 10.
Lemma maxw_ok (d : b64) z : is_finite d = true -> B2R d = IZR z -> (0 <= z)%Z -> (16777216 * z <= 16777217 * image_total)%Z ->
  top_ok (Bmult mode_NE tenth (Bconv 24 128 (Bdiv mode_NE d (BofZ 53 1024 256)))).
Proof.
  unfold image_total. intros F V Z0 Z1. assert (ZR : 0 <= IZR z) by (apply (IZR_le 0); auto).
  apply IZR_le in Z1. rewrite !mult_IZR in Z1. destruct (BofZ_exact 53 1024 256) as [F2 V2]; try lia. destruct tenth_val as [FT VT].
  assert (B31 : bpow radix2 31 = 2147483648) by (cbn; lra).
  set (top := 2143289344). (* 511 * 2^22 *)
  assert (TI : rnd64 top = top) by (apply (fmt64_int 2143289344); lia).
  assert (T32 : rnd32 top = top).
  { apply round_generic; [apply valid_rnd_N|]. apply (generic_format_FLT radix2 (-149) 24). exists (Float radix2 511 22); [unfold top, F2R; cbn; lra|cbn; lia|cbn; lia]. }
  assert (Q : 0 <= IZR z / 256 <= top) by (unfold top; lra).
  assert (Q64 : 0 <= rnd64 (IZR z / 256) <= top) by (split; [apply rnd64_pos; lra|rewrite <- TI; apply rnd64_mono; lra]).
  destruct (proj1 (Bdiv_fin 53 1024 d _ F ltac:(rewrite V2; lra))) as [F3 V3].
  { rewrite V, V2, Rabs_pos_eq by lra. apply Rle_lt_trans with (bpow radix2 31); [unfold top in Q64; lra|apply bpow_lt; lia]. }
  rewrite V, V2 in V3.
  assert (Q32 : 0 <= rnd32 (rnd64 (IZR z / 256)) <= top) by (split; [apply rnd32_pos; lra|rewrite <- T32; apply rnd32_mono; lra]).
  destruct (bconv_down _ F3) as [F4 V4].
  { rewrite V3, Rabs_pos_eq by lra. apply Rle_lt_trans with (bpow radix2 31); [unfold top in Q32; lra|apply bpow_lt; lia]. }
  rewrite V3 in V4. set (x := Bconv 24 128 _) in *.
  assert (X : 0 <= B2R x <= top) by (rewrite V4; exact Q32).
  assert (PX : 0 <= B2R tenth * B2R x <= 1 / 10 * (1 + u24) * top).
  { split; [apply Rmult_le_pos; lra|]. apply Rmult_le_compat; lra. }
  destruct (mul_val tenth x FT F4) as [F5 V5].
  { split; [lra|]. apply Rle_trans with (bpow radix2 31); [|apply bpow_le; lia]. unfold u24, top in PX. lra. }
  split; [exact F5|]. rewrite V5.
  assert (LO : B2R x = 0 \/ bpow radix2 (-8) <= B2R x).
  { destruct (Z.eq_dec z 0) as [E|NE].
    - left. rewrite V4, E. replace (0 / 256) with 0 by lra. replace (rnd64 0) with 0 by (symmetry; apply round_0, valid_rnd_N). apply rnd32_0.
    - right. rewrite V4. apply rnd32_ge_bpow; [lia|]. apply rnd64_ge_bpow; [lia|]. assert (1 <= IZR z) by (apply (IZR_le 1); lia). replace (bpow radix2 (-8)) with (/ 256) by (cbn; lra). lra. }
  destruct LO as [LO|LO].
  - rewrite LO, Rmult_0_r, rnd32_0. split; [left; auto|lra].
  - assert (L2 : / 16 * bpow radix2 (-8) <= B2R tenth * B2R x) by (apply Rmult_le_compat; try lra; apply bpow_ge_0).
    assert (L3 : bpow radix2 (-12) <= B2R tenth * B2R x).
    { replace (bpow radix2 (-12)) with (/ 16 * bpow radix2 (-8)) by (cbn; lra). exact L2. }
    split.
    + right. apply rnd32_ge_bpow; [lia|]. apply Rle_trans with (2 := L3). apply bpow_le. lia.
    + apply Rle_trans with (B2R tenth * B2R x * (1 + u24)).
      * apply rnd32_up. apply Rle_trans with (2 := L3). apply bpow_le. lia.
      * apply Rle_trans with (1 / 10 * (1 + u24) * top * (1 + u24)); [apply Rmult_le_compat_r; [unfold u24; lra|lra]|]. unfold u24, top. lra.
Qed.
Definition wt31 (w : b32) : Prop := is_finite w = true /\ (B2R w = 0 \/ bpow radix2 (-100) <= B2R w) /\ B2R w <= bpow radix2 31.
Lemma level_start G w : wt31 w -> level (bpow radix2 31) G 0 w w.
Proof. intros (F & L & B). constructor; auto; [lra|]. cbn [pow]. lra. Qed.
Lemma item_weight_ok (maxw : b32) n : (0 <= n <= U32_MAX)%Z -> top_ok maxw -> wt31 (@item_weight Ar maxw n).
Proof.
  intros N (F & L & U). destruct (count_val n N) as (m & FN & VN & M & M0 & M1 & _).
  assert (B31 : bpow radix2 31 = 2147483648) by (cbn; lra).
  assert (LO : forall k x, (-100 <= k)%Z -> x = 0 \/ bpow radix2 k <= x -> x = 0 \/ bpow radix2 (-100) <= x).
  { intros k x K [->|H]; auto. right. apply Rle_trans with (2 := H). apply bpow_le. auto. }
  change (wt31 (if Bltb (BofZ 24 128 0) (BofZ 24 128 n) then Bmin (Bmult mode_NE (BofZ 24 128 n) (Bdiv mode_NE (BofZ 24 128 1) (BofZ 24 128 256))) maxw else Bmult mode_NE maxw (BofZ 24 128 10))).
  destruct (BofZ_exact 24 128 0) as [F0 V0]; try lia.
  destruct (Bltb _ _) eqn:E.
  - apply (Bltb_fin 24 128) in E; auto. rewrite V0, VN in E.
    assert (W : wt31 (Bmult mode_NE (BofZ 24 128 n) (Bdiv mode_NE (BofZ 24 128 1) (BofZ 24 128 256)))).
    { destruct (BofZ_exact 24 128 1) as [FO VO]; try lia. destruct (BofZ_exact 24 128 256) as [F2 V2]; try lia.
      assert (I : rnd32 (1 / 256) = / 256).
      { replace (1 / 256) with (bpow radix2 (-8)) by (cbn; lra). rewrite round_generic; [cbn; lra|apply valid_rnd_N|apply fmt_bpow; lia]. }
      destruct (proj1 (Bdiv_fin 24 128 _ _ FO ltac:(rewrite V2; lra))) as [F3 V3].
      { rewrite VO, V2, I. rewrite Rabs_pos_eq by lra. apply Rle_lt_trans with (bpow radix2 0); [cbn; lra|apply bpow_lt; lia]. }
      rewrite VO, V2, I in V3.
      assert (MB : 0 < IZR m <= 4294967296) by (split; [exact E|apply IZR_le; apply M]).
      assert (B100 : 4294967296 <= bpow radix2 100).
      { apply Rle_trans with (bpow radix2 32); [cbn; lra|apply bpow_le; lia]. }
      destruct (mul_val _ _ FN F3) as [F4 V4]; [rewrite VN, V3; lra|]. rewrite VN, V3 in V4. split; [exact F4|]. rewrite V4.
      apply lt_IZR in E. assert (1 <= IZR m) by (apply (IZR_le 1); lia). split.
      - right. apply rnd32_ge_bpow; [lia|]. apply Rle_trans with (bpow radix2 (-8)); [apply bpow_le; lia|]. replace (bpow radix2 (-8)) with (/ 256) by (cbn; lra). lra.
      - apply rnd32_le_bpow; [lia|]. lra. }
    assert (W2 : wt31 maxw) by (split; [exact F|]; split; [apply (LO (-13)%Z); [lia|exact L]|lra]).
    unfold Bmin. destruct (is_nan _); [exact W2|]. destruct (is_nan maxw); [exact W|]. destruct (Bltb _ _); [exact W2|exact W].
  - destruct (BofZ_exact 24 128 10) as [FT VT]; try lia.
    assert (P : 0 <= B2R maxw) by (destruct L as [->|L]; [lra|apply Rle_trans with (2 := L); apply bpow_ge_0]).
    destruct (mul_val _ _ F FT) as [F4 V4]; [rewrite VT; split; [lra|]; apply Rle_trans with (bpow radix2 31); [lra|apply bpow_le; lia]|].
    rewrite VT in V4. split; [exact F4|]. rewrite V4. split.
    + destruct L as [->|L]; [left; rewrite Rmult_0_l; apply rnd32_0|right]. apply rnd32_ge_bpow; [lia|].
      apply Rle_trans with (bpow radix2 (-13)); [apply bpow_le; lia|]. pose proof (bpow_gt_0 radix2 (-13)). lra.
    + apply rnd32_le_bpow; [lia|]. lra.
Qed.
(** Without a limit on the sum: counted colours only. *)
Lemma dsum_top l : Forall (fun x : b64 => is_finite x = true /\ (B2R x = 0 \/ 1 <= B2R x) /\ B2R x <= bpow radix2 32) l -> forall s : b64,
  is_finite s = true -> (B2R s = 0 \/ 1 <= B2R s) -> B2R s <= bpow radix2 90 ->
  let t := fold_left (Bplus mode_NE) l s in is_finite t = true /\ (B2R t = 0 \/ 1 <= B2R t) /\ B2R t <= bpow radix2 90.
Proof.
  assert (LO : forall x, x = 0 \/ 1 <= x -> x = 0 \/ bpow radix2 (-149) <= x).
  { intros x [->|H]; auto. right. apply Rle_trans with (2 := H). change 1 with (bpow radix2 0). apply bpow_le. lia. }
  induction 1 as [|x l (Fx & Lx & Ux) F IH]; intros s Fs Ls Us; cbv zeta; cbn [fold_left]; [auto|].
  destruct (total_add 32 90 s x ltac:(lia) ltac:(lia) (conj Fs (conj (LO _ Ls) Us)) (conj Fx (conj (LO _ Lx) Ux))) as ((F1 & _ & U1) & V1).
  apply IH; auto. rewrite V1. destruct Ls as [Z1|L1], Lx as [Z2|L2].
  - left. rewrite Z1, Z2, Rplus_0_l. apply round_0, valid_rnd_N.
  - right. change 1 with (bpow radix2 0). apply rnd64_ge_bpow; [lia|]. change (bpow radix2 0) with 1. lra.
  - right. change 1 with (bpow radix2 0). apply rnd64_ge_bpow; [lia|]. change (bpow radix2 0) with 1. lra.
  - right. change 1 with (bpow radix2 0). apply rnd64_ge_bpow; [lia|]. change (bpow radix2 0) with 1. lra.
Qed.
Lemma maxw_any (d : b64) : is_finite d = true -> (B2R d = 0 \/ 1 <= B2R d) -> B2R d <= bpow radix2 90 ->
  let m : b32 := Bmult mode_NE tenth (Bconv 24 128 (Bdiv mode_NE d (BofZ 53 1024 256))) in is_finite m = true /\ (B2R d = 0 /\ B2R m = 0 \/ bpow radix2 (-13) <= B2R m).
Proof.
  intros F L U. destruct (BofZ_exact 53 1024 256) as [F2 V2]; try lia. destruct tenth_val as [FT VT].
  assert (P : 0 <= B2R d) by (destruct L; lra). pose proof (bpow_gt_0 radix2 90) as B90.
  assert (Q : 0 <= B2R d / 256 <= bpow radix2 90) by lra.
  assert (Q64 : 0 <= rnd64 (B2R d / 256) <= bpow radix2 90) by (split; [apply rnd64_pos; lra|apply rnd64_le_bpow; [lia|lra]]).
  destruct (proj1 (Bdiv_fin 53 1024 d _ F ltac:(rewrite V2; lra))) as [F3 V3].
  { rewrite V2, Rabs_pos_eq by lra. apply Rle_lt_trans with (1 := proj2 Q64). apply bpow_lt; lia. }
  rewrite V2 in V3.
  assert (Q32 : 0 <= rnd32 (rnd64 (B2R d / 256)) <= bpow radix2 90) by (split; [apply rnd32_pos; lra|apply rnd32_le_bpow; [lia|lra]]).
  destruct (bconv_down _ F3) as [F4 V4].
  { rewrite V3, Rabs_pos_eq by lra. apply Rle_lt_trans with (1 := proj2 Q32). apply bpow_lt; lia. }
  rewrite V3 in V4. set (x := Bconv 24 128 _) in *.
  assert (X : 0 <= B2R x <= bpow radix2 90) by (rewrite V4; exact Q32).
  assert (PX : 0 <= B2R tenth * B2R x <= 1 * bpow radix2 90).
  { split; [apply Rmult_le_pos; lra|]. apply Rmult_le_compat; try lra. unfold u24 in VT. lra. }
  destruct (mul_val tenth x FT F4) as [F5 V5].
  { split; [lra|]. apply Rle_trans with (bpow radix2 90); [lra|apply bpow_le; lia]. }
  split; [exact F5|]. rewrite V5.
  assert (LO : B2R d = 0 /\ B2R x = 0 \/ bpow radix2 (-8) <= B2R x).
  { destruct L as [E|NE].
    - left. split; [exact E|]. rewrite V4, E. replace (0 / 256) with 0 by lra. replace (rnd64 0) with 0 by (symmetry; apply round_0, valid_rnd_N). apply rnd32_0.
    - right. rewrite V4. apply rnd32_ge_bpow; [lia|]. apply rnd64_ge_bpow; [lia|]. replace (bpow radix2 (-8)) with (/ 256) by (cbn; lra). lra. }
  destruct LO as [[LD LO]|LO]; [left; split; [exact LD|rewrite LO, Rmult_0_r; apply rnd32_0]|right].
  assert (L2 : / 16 * bpow radix2 (-8) <= B2R tenth * B2R x) by (apply Rmult_le_compat; try lra; apply bpow_ge_0).
  apply rnd32_ge_bpow; [lia|]. apply Rle_trans with (2 := L2). replace (/ 16) with (bpow radix2 (-4)) by (cbn; lra). rewrite <- bpow_plus. apply bpow_le. lia.
Qed.
Lemma item_weight_any (maxw : b32) n : (1 <= n <= U32_MAX)%Z -> is_finite maxw = true -> (B2R maxw = 0 \/ bpow radix2 (-13) <= B2R maxw) -> wt31 (@item_weight Ar maxw n).
Proof.
  intros N F L. destruct (Rle_lt_dec (B2R maxw) (bpow radix2 31 / 10)) as [S|S].
  - apply item_weight_ok; [lia|]. split; auto.
  - (* the smaller of the two is the count *)
    assert (T : top_ok (BofZ 24 128 134217728)).
    { destruct (BofZ_fin 24 128 134217728) as [F1 V1].
      { replace (IZR 134217728) with (bpow radix2 27) by (cbn; lra). rewrite round_generic; [|apply valid_rnd_N|apply fmt_bpow; lia].
        rewrite Rabs_pos_eq by apply bpow_ge_0. apply bpow_lt. lia. }
      split; [exact F1|]. rewrite V1. replace (IZR 134217728) with (bpow radix2 27) by (cbn; lra). rewrite round_generic; [|apply valid_rnd_N|apply fmt_bpow; lia].
      split; [right; apply bpow_le; lia|]. cbn. lra. }
    pose proof (item_weight_ok _ n ltac:(lia) T) as W. revert W. destruct T as (FT & _ & _).
    assert (VT : B2R (BofZ 24 128 134217728 : b32) = bpow radix2 27).
    { destruct (BofZ_fin 24 128 134217728) as [F1 V1].
      { replace (IZR 134217728) with (bpow radix2 27) by (cbn; lra). rewrite round_generic; [|apply valid_rnd_N|apply fmt_bpow; lia].
        rewrite Rabs_pos_eq by apply bpow_ge_0. apply bpow_lt. lia. }
      rewrite V1. replace (IZR 134217728) with (bpow radix2 27) by (cbn; lra). apply round_generic; [apply valid_rnd_N|apply fmt_bpow; lia]. }
    destruct (count_val n ltac:(lia)) as (m & FN & VN & M & _ & M1 & _). destruct (BofZ_exact 24 128 0) as [F0 V0]; try lia.
    pose (x := Bmult mode_NE (BofZ 24 128 n) (Bdiv mode_NE (BofZ 24 128 1) (BofZ 24 128 256)) : b32).
    change (wt31 (if Bltb (BofZ 24 128 0) (BofZ 24 128 n) then Bmin x (BofZ 24 128 134217728) else Bmult mode_NE (BofZ 24 128 134217728) (BofZ 24 128 10)) ->
            wt31 (if Bltb (BofZ 24 128 0) (BofZ 24 128 n) then Bmin x maxw else Bmult mode_NE maxw (BofZ 24 128 10))).
    assert (E : Bltb (BofZ 24 128 0) (BofZ 24 128 n) = true).
    { apply (Bltb_fin 24 128); auto. rewrite V0, VN. apply (IZR_lt 0). lia. }
    rewrite E.
    assert (X : is_finite x = true /\ B2R x <= bpow radix2 24).
    { unfold x. destruct (BofZ_exact 24 128 1) as [FO VO]; try lia. destruct (BofZ_exact 24 128 256) as [F2 V2]; try lia.
      assert (I : rnd32 (1 / 256) = / 256).
      { replace (1 / 256) with (bpow radix2 (-8)) by (cbn; lra). rewrite round_generic; [cbn; lra|apply valid_rnd_N|apply fmt_bpow; lia]. }
      destruct (proj1 (Bdiv_fin 24 128 _ _ FO ltac:(rewrite V2; lra))) as [F3 V3].
      { rewrite VO, V2, I. rewrite Rabs_pos_eq by lra. apply Rle_lt_trans with (bpow radix2 0); [cbn; lra|apply bpow_lt; lia]. }
      rewrite VO, V2, I in V3.
      assert (MB : 0 <= IZR m <= 4294967296) by (split; [apply (IZR_le 0)|apply IZR_le]; lia).
      assert (B100 : 4294967296 <= bpow radix2 100) by (apply Rle_trans with (bpow radix2 32); [cbn; lra|apply bpow_le; lia]).
      destruct (mul_val _ _ FN F3) as [F4 V4]; [rewrite VN, V3; lra|]. rewrite VN, V3 in V4. split; [exact F4|]. rewrite V4.
      apply rnd32_le_bpow; [lia|]. replace (bpow radix2 24) with 16777216 by (cbn; lra). lra. }
    destruct X as [FX UX].
    assert (NN : forall y : b32, is_finite y = true -> B2R x < B2R y -> Bmin x y = x).
    { intros y Fy Y. unfold Bmin. replace (is_nan x) with false by (destruct x; auto; discriminate). replace (is_nan y) with false by (destruct y; auto; discriminate).
      destruct (Bltb y x) eqn:B; auto. apply (Bltb_fin 24 128) in B; auto. lra. }
    rewrite !NN; auto.
    + apply Rle_lt_trans with (1 := UX). apply Rle_lt_trans with (2 := S). cbn. lra.
    + rewrite VT. apply Rle_lt_trans with (1 := UX). apply bpow_lt. lia.
Qed.
Lemma zsum_perm' l l' : Permutation l l' -> zsum l = zsum l'.
Proof. induction 1; cbn [zsum]; lia. Qed.
Lemma counts_floats (vals : list (Z * rgba)) : Forall (fun v => 0 <= fst v <= U32_MAX)%Z vals ->
  exists zs, Forall2 (fun x m => is_finite (x : b64) = true /\ B2R (x : b64) = IZR m /\ (0 <= m)%Z) (map (fun v => @f2d Ar (fofZ (fst v))) vals) zs /\
    (0 <= 16777216 * zsum zs <= 16777217 * zsum (map fst vals))%Z.
Proof.
  induction 1 as [|v vals H F (zs & IH1 & IH2)]; cbn [map]; [exists []; split; [constructor|cbn [zsum]; lia]|].
  destruct (count_val (fst v) H) as (m & F1 & V1 & M & _ & _ & U). exists (m :: zs). split.
  - constructor; [|exact IH1]. destruct (f2d_exact _ F1) as [F2 V2]. split; [exact F2|]. split; [|lia].
    change (@f2d Ar (fofZ (fst v))) with (Bconv 53 1024 (BofZ 24 128 (fst v))). rewrite V2. exact V1.
  - cbn [zsum]. lia.
Qed.
Lemma weights_ok (vals : list (Z * rgba)) : Forall (fun v => 0 <= fst v <= U32_MAX)%Z vals ->
  (Forall (fun v => 1 <= fst v)%Z vals \/ (zsum (map fst vals) <= image_total)%Z) ->
  Forall (fun v => wt31 (@item_weight Ar (@fmul Ar (flit 1 10) (d2f (ddiv (dsum (map (fun v => f2d (fofZ (fst v))) vals)) (dofZ 256)))) (fst v))) vals.
Proof.
  intros CV [PV|TV].
  - assert (TS : Forall (fun x : b64 => is_finite x = true /\ (B2R x = 0 \/ 1 <= B2R x) /\ B2R x <= bpow radix2 32) (map (fun v => @f2d Ar (fofZ (fst v))) vals)).
    { apply Forall_map. eapply Forall_impl; [|exact CV]. intros v Hv. cbv beta in Hv. destruct (count_val (fst v) Hv) as (m & F1 & V1 & M & M0 & M1 & _).
      destruct (f2d_exact _ F1) as [F2 V2]. split; [exact F2|]. change (@f2d Ar (fofZ (fst v))) with (Bconv 53 1024 (BofZ 24 128 (fst v))). rewrite V2, V1.
      split; [|replace (bpow radix2 32) with (IZR 4294967296) by (cbn; lra); apply IZR_le; lia].
      destruct (Z.eq_dec (fst v) 0) as [E|NE]; [left; rewrite M0; auto|right; apply (IZR_le 1); lia]. }
    destruct (BofZ_exact 53 1024 0) as [F0 V0]; try lia.
    destruct (dsum_top _ TS (BofZ 53 1024 0) F0 (or_introl V0) ltac:(rewrite V0; apply bpow_ge_0)) as (FS & LS & US).
    destruct (maxw_any _ FS LS US) as [FM LM0].
    assert (LM : let m : b32 := Bmult mode_NE tenth (Bconv 24 128 (Bdiv mode_NE (fold_left (Bplus mode_NE) (map (fun v => @f2d Ar (fofZ (fst v))) vals) (BofZ 53 1024 0)) (BofZ 53 1024 256))) in
      B2R m = 0 \/ bpow radix2 (-13) <= B2R m) by (destruct LM0 as [[_ X]|X]; [left|right]; exact X).
    rewrite Forall_forall in *. intros v Hv. apply item_weight_any; [specialize (CV v Hv); specialize (PV v Hv); lia|exact FM|exact LM].
  - destruct (counts_floats vals CV) as (zs & Z1 & Z2).
    destruct (BofZ_exact 53 1024 0) as [F0 V0]; try lia.
    destruct (dsum_counts _ (BofZ 53 1024 0) 0 zs F0 V0 ltac:(lia) Z1) as [FS VS]; [unfold image_total in TV; lia|].
    eapply Forall_impl; [|exact CV]. intros v Hv. apply item_weight_ok; [exact Hv|].
    refine (maxw_ok _ (zsum zs) FS VS _ _); [clear - Z2; lia|apply Z.le_trans with (1 := proj2 Z2); apply Z.mul_le_mono_nonneg_l; [lia|exact TV]].
Qed.
(** The total weight is positive as soon as a colour was counted. *)
Lemma total_sum k m l : (-149 <= k)%Z -> (k + 54 <= m <= 1000)%Z -> Forall (total_ok k) l -> forall s : b64, total_ok m s ->
  let t := fold_left (Bplus mode_NE) l s in total_ok m t /\ (0 < B2R s \/ Exists (fun x : b64 => 0 < B2R x) l -> 0 < B2R t).
Proof.
  intros K M. induction 1 as [|x l Hx F IH]; intros s Hs; cbv zeta; cbn [fold_left].
  - split; [exact Hs|]. intros [H|H]; [exact H|inversion H].
  - destruct (total_add k m s x K M Hs Hx) as [T V]. destruct (IH _ T) as [T1 P1]. split; [exact T1|]. intros H. apply P1.
    assert (D : (0 < B2R s \/ 0 < B2R x) \/ Exists (fun x : b64 => 0 < B2R x) l) by (destruct H as [H|H]; [auto|inversion H; subst; auto]).
    destruct D as [D|D]; [left|right; exact D]. rewrite V.
    pose proof (total_pos _ _ Hs) as PS. pose proof (total_pos _ _ Hx) as PX. destruct Hs as (_ & Ls & _), Hx as (_ & Lx & _).
    apply Rlt_le_trans with (bpow radix2 (-149)); [apply bpow_gt_0|]. apply rnd64_ge_bpow; [lia|].
    destruct D as [D|D]; [destruct Ls as [Ls|Ls]|destruct Lx as [Lx|Lx]]; lra.
Qed.
Lemma item_weight_pos (maxw : b32) n : (1 <= n <= U32_MAX)%Z -> is_finite maxw = true -> bpow radix2 (-13) <= B2R maxw -> 0 < B2R (@item_weight Ar maxw n : b32).
Proof.
  intros N F L. destruct (count_val n ltac:(lia)) as (m & FN & VN & M & _ & M1 & _). destruct (BofZ_exact 24 128 0) as [F0 V0]; try lia.
  pose (x := Bmult mode_NE (BofZ 24 128 n) (Bdiv mode_NE (BofZ 24 128 1) (BofZ 24 128 256)) : b32).
  change (0 < B2R (if Bltb (BofZ 24 128 0) (BofZ 24 128 n) then Bmin x maxw else Bmult mode_NE maxw (BofZ 24 128 10) : b32)).
  assert (E : Bltb (BofZ 24 128 0) (BofZ 24 128 n) = true).
  { apply (Bltb_fin 24 128); auto. rewrite V0, VN. apply (IZR_lt 0). lia. }
  rewrite E. pose proof (bpow_gt_0 radix2 (-13)) as B13.
  assert (X : 0 < B2R x).
  { unfold x. destruct (BofZ_exact 24 128 1) as [FO VO]; try lia. destruct (BofZ_exact 24 128 256) as [F2 V2]; try lia.
    assert (I : rnd32 (1 / 256) = / 256).
    { replace (1 / 256) with (bpow radix2 (-8)) by (cbn; lra). rewrite round_generic; [cbn; lra|apply valid_rnd_N|apply fmt_bpow; lia]. }
    destruct (proj1 (Bdiv_fin 24 128 _ _ FO ltac:(rewrite V2; lra))) as [F3 V3].
    { rewrite VO, V2, I. rewrite Rabs_pos_eq by lra. apply Rle_lt_trans with (bpow radix2 0); [cbn; lra|apply bpow_lt; lia]. }
    rewrite VO, V2, I in V3.
    assert (MB : 1 <= IZR m <= 4294967296) by (split; [apply (IZR_le 1)|apply IZR_le]; lia).
    assert (B100 : 4294967296 <= bpow radix2 100) by (apply Rle_trans with (bpow radix2 32); [cbn; lra|apply bpow_le; lia]).
    destruct (mul_val _ _ FN F3) as [F4 V4]; [rewrite VN, V3; lra|]. rewrite VN, V3 in V4. rewrite V4.
    apply Rlt_le_trans with (bpow radix2 (-8)); [apply bpow_gt_0|]. apply rnd32_ge_bpow; [lia|]. replace (bpow radix2 (-8)) with (/ 256) by (cbn; lra). lra. }
  unfold Bmin. destruct (is_nan x); [lra|]. destruct (is_nan maxw); [lra|]. destruct (Bltb maxw x); lra.
Qed.
Lemma total_weight (vals : list (Z * rgba)) : Forall (fun v => 0 <= fst v <= U32_MAX)%Z vals ->
  (Forall (fun v => 1 <= fst v)%Z vals \/ (zsum (map fst vals) <= image_total)%Z) -> Exists (fun v => 1 <= fst v)%Z vals ->
  let maxw := @fmul Ar (flit 1 10) (d2f (ddiv (dsum (map (fun v => f2d (fofZ (fst v))) vals)) (dofZ 256))) in
  let t : b64 := fold_left (fun s v => @dadd Ar s (f2d (item_weight maxw (fst v)))) vals d0 in
  total_ok 90 t /\ 0 < B2R t.
Proof.
  intros CV TT EX maxw t. pose proof (weights_ok vals CV TT) as WV. fold maxw in WV.
  assert (FM : is_finite (maxw : b32) = true /\ bpow radix2 (-13) <= B2R (maxw : b32)).
  { assert (TS : Forall (fun x : b64 => is_finite x = true /\ (B2R x = 0 \/ 1 <= B2R x) /\ B2R x <= bpow radix2 32) (map (fun v => @f2d Ar (fofZ (fst v))) vals)).
    { apply Forall_map. eapply Forall_impl; [|exact CV]. intros v Hv. cbv beta in Hv. destruct (count_val (fst v) Hv) as (m & F1 & V1 & M & M0 & M1 & _).
      destruct (f2d_exact _ F1) as [F2 V2]. split; [exact F2|]. change (@f2d Ar (fofZ (fst v))) with (Bconv 53 1024 (BofZ 24 128 (fst v))). rewrite V2, V1.
      split; [|replace (bpow radix2 32) with (IZR 4294967296) by (cbn; lra); apply IZR_le; lia].
      destruct (Z.eq_dec (fst v) 0) as [E|NE]; [left; rewrite M0; auto|right; apply (IZR_le 1); lia]. }
    destruct (BofZ_exact 53 1024 0) as [F0 V0]; try lia.
    destruct (dsum_top _ TS (BofZ 53 1024 0) F0 (or_introl V0) ltac:(rewrite V0; apply bpow_ge_0)) as (FS & LS & US).
    destruct (maxw_any _ FS LS US) as [FM LM]. split; [exact FM|]. destruct LM as [[LD _]|LM]; [exfalso|exact LM].
    assert (TK : Forall (total_ok 32) (map (fun v => @f2d Ar (fofZ (fst v))) vals)).
    { eapply Forall_impl; [|exact TS]. intros x (X1 & X2 & X3). split; [exact X1|]. split; [|exact X3]. destruct X2 as [X2|X2]; [left; exact X2|right].
      apply Rle_trans with (2 := X2). change 1 with (bpow radix2 0). apply bpow_le. lia. }
    destruct (total_sum 32 90 _ ltac:(lia) ltac:(lia) TK (BofZ 53 1024 0) (d0_total pow32 pow64 90)) as [_ PS].
    cbv zeta in PS, LD. rewrite LD in PS. apply (Rlt_irrefl 0), PS. right. apply Exists_exists in EX as (v & Hv & N1). apply Exists_exists.
    exists (@f2d Ar (fofZ (fst v))). split; [exact (in_map (fun v => @f2d Ar (fofZ (fst v))) vals v Hv)|].
    rewrite Forall_forall in CV. destruct (count_val (fst v) (CV v Hv)) as (m & F1 & V1 & M & M0 & M1 & _). destruct (f2d_exact _ F1) as [F2 V2].
    change (@f2d Ar (fofZ (fst v))) with (Bconv 53 1024 (BofZ 24 128 (fst v))). rewrite V2, V1. apply (IZR_lt 0). lia. }
  destruct FM as [FM LM].
  assert (EQ : t = fold_left (Bplus mode_NE) (map (fun v => @f2d Ar (item_weight maxw (fst v))) vals) (d0 : @f64 Ar)).
  { unfold t. generalize (@d0 Ar). generalize maxw. clear. intros maxw. induction vals as [|v vals IH]; intros s; cbn [fold_left map]; [reflexivity|]. exact (IH _). }
  assert (TW : Forall (total_ok 31) (map (fun v => @f2d Ar (item_weight maxw (fst v))) vals)).
  { apply Forall_map. eapply Forall_impl; [|exact WV]. intros v (W1 & W2 & W3). destruct (f2d_exact _ W1) as [F2 V2]. split; [exact F2|].
    change (@f2d Ar (item_weight maxw (fst v))) with (Bconv 53 1024 (item_weight maxw (fst v) : b32)). rewrite V2. split; [|exact W3].
    destruct W2 as [W2|W2]; [left; exact W2|right]. apply Rle_trans with (2 := W2). apply bpow_le. lia. }
  destruct (total_sum 31 90 _ ltac:(lia) ltac:(lia) TW (d0 : @f64 Ar) (d0_total pow32 pow64 90)) as [T1 P1]. rewrite EQ. split; [exact T1|].
  apply P1. right. apply Exists_exists in EX as (v & Hv & N1). apply Exists_exists. exists (@f2d Ar (item_weight maxw (fst v))).
  split; [exact (in_map (fun v => @f2d Ar (item_weight maxw (fst v))) vals v Hv)|].
  rewrite Forall_forall in WV, CV. destruct (WV v Hv) as (W1 & _ & _). destruct (f2d_exact _ W1) as [_ V2].
  change (@f2d Ar (item_weight maxw (fst v))) with (Bconv 53 1024 (item_weight maxw (fst v) : b32)). rewrite V2. apply item_weight_pos; auto. specialize (CV v Hv). lia.
Qed.
(** The finished histogram of the search satisfies its starting condition. *)
Lemma finalize_start u h g kk hr hg G k T : unspec_ok u -> hist_wf h -> counts_ok h -> (hg_map h <> [] \/ hg_fixed h <> []) -> (d0 <d g)%flt = true ->
  (Forall (fun e => 1 <= fst (snd e))%Z (hg_map (insert_fixed u h)) \/ (zsum (map (fun e => fst (snd e)) (hg_map (insert_fixed u h))) <= image_total)%Z) ->
  let hi := fst (finalize_builder u h g) in
  regime pow32 pow64 kk hr hg G (bpow radix2 31) k T (length (hi_items hi)) ->
  HI pow32 pow64 kk hr hg G (bpow radix2 31) (length (hi_items hi)) (hi_total hi) 0 hi.
Proof.
  intros U W CO NE GP TT hi RG. destruct (QuantFacts.finalize_ok u U h g W NE) as (HO & _).
  destruct (insert_fixed_wf u U h W) as (W1 & _). pose proof (@insert_fixed_counts Ar u h CO) as C1.
  split; [exact HO|]. split; [reflexivity|]. split.
  - apply Forall_map, Forall_forall. intros it Hit.
    unfold hi, finalize_builder in Hit. cbv zeta in Hit. cbn [fst hi_items] in Hit.
    set (vals := map snd (u_map u (hg_map (insert_fixed u h)))) in *.
    apply in_map_iff in Hit as (v & <- & Hv).
    assert (Iv : In v vals) by (apply in_concat in Hv as (l & Hl & Hv); apply in_map_iff in Hl as (j & <- & _); apply filter_In in Hv; apply Hv).
    assert (PM : Permutation (map snd (hg_map (insert_fixed u h))) vals) by (apply Permutation_map, (uo_map u U)).
    assert (CV : Forall (fun v => 0 <= fst v <= U32_MAX)%Z vals) by (eapply Permutation_Forall; [exact PM|apply Forall_map; exact C1]).
    assert (RV : Forall (fun v => rgba_ok (snd v)) vals).
    { eapply Permutation_Forall; [exact PM|]. apply Forall_map. eapply Forall_impl; [|apply W1]. cbn. tauto. }
    assert (TV : zsum (map fst vals) = zsum (map (fun e : rgba * (Z * rgba) => fst (snd e)) (hg_map (insert_fixed u h)))).
    { rewrite <- (map_map snd fst). apply zsum_perm', Permutation_map. symmetry. exact PM. }
    assert (MW : Forall (fun v => 1 <= fst v)%Z vals \/ (zsum (map fst vals) <= image_total)%Z).
    { destruct TT as [TT|TT]; [left|right; rewrite TV; exact TT]. eapply Permutation_Forall; [exact PM|]. apply Forall_map. exact TT. }
    pose proof (weights_ok vals CV MW) as WV. rewrite Forall_forall in WV. specialize (WV v Iv).
    rewrite Forall_forall in CV, RV. specialize (CV v Iv). specialize (RV v Iv).
    split; [apply (pixel_ink g); auto|]. cbn [core mk_item h_color h_adj h_perc fst snd].
    apply level_start. exact WV.
  - split; [|reflexivity]. eapply Permutation_Forall; [symmetry; apply (finalize_fixed u h g U)|]. apply Forall_map.
    eapply Forall_impl; [|apply W]. intros f Hf. apply (rg_ink _ _ _ _ _ _ _ _ _ _ RG). apply pixel_ink; auto.
Qed.
Lemma finalize_total u h g : unspec_ok u -> counts_ok h ->
  (Forall (fun e => 1 <= fst (snd e))%Z (hg_map (insert_fixed u h)) \/ (zsum (map (fun e => fst (snd e)) (hg_map (insert_fixed u h))) <= image_total)%Z) ->
  Exists (fun e => 1 <= fst (snd e))%Z (hg_map (insert_fixed u h)) ->
  let t : b64 := hi_total (fst (finalize_builder u h g)) in total_ok 90 t /\ 0 < B2R t.
Proof.
  intros U CO TT EX. pose proof (@insert_fixed_counts Ar u h CO) as C1.
  unfold finalize_builder. cbv zeta. cbn [fst hi_total].
  set (vals := map snd (u_map u (hg_map (insert_fixed u h)))).
  assert (PM : Permutation (map snd (hg_map (insert_fixed u h))) vals) by (apply Permutation_map, (uo_map u U)).
  assert (CV : Forall (fun v => 0 <= fst v <= U32_MAX)%Z vals) by (eapply Permutation_Forall; [exact PM|apply Forall_map; exact C1]).
  assert (TV : zsum (map fst vals) = zsum (map (fun e : rgba * (Z * rgba) => fst (snd e)) (hg_map (insert_fixed u h)))).
  { rewrite <- (map_map snd fst). apply zsum_perm', Permutation_map. symmetry. exact PM. }
  apply (total_weight vals CV).
  - destruct TT as [TT|TT]; [left|right; rewrite TV; exact TT]. eapply Permutation_Forall; [exact PM|]. apply Forall_map. exact TT.
  - apply Exists_exists in EX as (e & He & N1). apply Exists_exists. exists (snd e). split; [|exact N1]. eapply Permutation_in; [exact PM|]. apply in_map. exact He.
Qed.
End I.
