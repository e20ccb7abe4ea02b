(** Floating point: a colour that is off by a few roundings is still shown as
    the 8-bit colour it came from. *)
From Coq Require Import Reals Lra.
From Verif Require Import Base Arith Ieee IeeeFacts Order Pal Kmeans SpecPow LnFacts ColorFacts SmallFloat MedianIeee AvgIeee SimdFacts MetricIeee ContrastIeee FixedIeee
  FiniteRemap ApartIeee AvgSame SpecImage.
From Flocq Require Import IEEE754.BinarySingleNaN Core.Core.
Open Scope R_scope.

Section Channel.
Variables (pow32 : b32 -> b32 -> b32) (pow64 : b64 -> b64 -> b64) (Acc : pow32_accurate pow32).
Notation "x [*] y" := (Bmult mode_NE x y) (at level 40, left associativity).
Notation "x [/] y" := (Bdiv mode_NE x y) (at level 40, left associativity).
Notation lut_at := (lut_at pow32).

(** The last steps, with room for an error. *)
Lemma show_near g v x lr : gamma_fits g -> (1 <= v <= 255)%Z -> lnf x lr -> Rabs (lr - B2R (e_in g) * (ln (IZR v) - ln 255)) <= 45 / 10000000 ->
  Bto_uint 255 (pow32 x (e_out g) [*] BofZ 24 128 256) = v.
Proof.
  intros Hg Hv Fr D2. destruct (exponents g Hg) as (X1 & X2 & X3 & X4 & X5).
  pose proof (ln_byte v Hv) as LV. assert (L5 : 0 <= ln (IZR 255) <= 577 / 100) by (pose proof (ln_byte 255 ltac:(lia)); lra).
  set (e1 := B2R (e_in g)) in *. set (e2 := B2R (e_out g)) in *. set (T := ln (IZR v) - ln (IZR 255)) in *.
  assert (V255 : ln (IZR v) <= ln (IZR 255)). { apply ln_le; [apply IZR_lt; lia|apply IZR_le; lia]. }
  assert (TR : -577 / 100 <= T <= 0) by (unfold T; lra). unfold u23 in *.
  assert (B2 : Rabs (e1 * T) <= 14).
  { rewrite Rabs_mult, (Rabs_pos_eq e1) by lra. apply Rle_trans with (24 / 10 * (577 / 100)); [|lra].
    apply Rmult_le_compat; try lra. apply Rabs_pos. apply Rabs_le; lra. }
  apply Rabs_le_inv in B2.
  assert (B3 : Rabs (e2 * lr) <= 27).
  { rewrite Rabs_mult, (Rabs_pos_eq e2) by lra. apply Rabs_le_inv in D2. apply Rle_trans with (18 / 10 * 15); [|lra].
    apply Rmult_le_compat; try lra. apply Rabs_pos. apply Rabs_le; lra. }
  destruct (pow_ln pow32 _ _ _ Acc Fr X2) as (lo & Fo & Eo). { fold e2. lra. }
  fold e2 in Eo. unfold u19 in Eo. apply Rabs_le_inv in Eo.
  assert (D3 : Rabs (e2 * lr - e2 * (e1 * T)) <= 18 / 10 * (45 / 10000000)).
  { rewrite <- Rmult_minus_distr_l, Rabs_mult, (Rabs_pos_eq e2) by lra. apply Rmult_le_compat; try lra. apply Rabs_pos. }
  apply Rabs_le_inv in D3.
  assert (D4 : Rabs (e2 * (e1 * T) - T) <= 5 * / 8388608 * (577 / 100)).
  { replace (e2 * (e1 * T) - T) with ((e1 * e2 - 1) * T) by ring. rewrite Rabs_mult. apply Rmult_le_compat; try apply Rabs_pos; auto. apply Rabs_le; lra. }
  apply Rabs_le_inv in D4.
  assert (D5 : Rabs (lo - T) <= 135 / 10000000). { apply Rabs_le. lra. }
  apply Rabs_le_inv in D5.
  destruct (mul_ln _ _ _ _ Fo (lnf_ofZ 256 ltac:(lia))) as (lf & (F1 & F2 & F3) & Ef).
  { assert (ln 256 <= 577 / 100 /\ 0 <= ln 256).
    { replace 256 with (2 ^ 8) by lra. rewrite ln_pow by lra. pose proof ln2_lt. pose proof ln2_pos. simpl INR. lra. }
    apply Rabs_le. lra. }
  apply Rabs_le_inv in Ef. unfold u23 in Ef.
  set (y := pow32 _ (e_out g) [*] _) in *.
  destruct Hv as [V1 V2]. assert (V1' := IZR_le _ _ V1). assert (V2' := IZR_le _ _ V2).
  assert (N : Rabs (ln (B2R y) - ln (256 * IZR v / 255)) <= 14 / 1000000).
  { rewrite LnFacts.ln_div, ln_mult by lra. rewrite F3. apply Rabs_le. unfold T in *. lra. }
  apply from_ln in N; [|auto|apply Rdiv_lt_0_compat; lra|lra]. apply Rabs_le_inv in N.
  apply to_uint_eq; auto; [lia|lra|].
  destruct (Z.eq_dec v 255) as [->|NV]; [right; auto|]. left. rewrite plus_IZR.
  assert (V3 : (v <= 254)%Z) by lia. apply IZR_le in V3. lra.
Qed.

Lemma near_pos x x' l : near x x' -> lnf x l -> exists l', lnf x' l' /\ Rabs (l' - l) <= 7 / 10000000.
Proof.
  intros [[-> _]|(F & X & F' & P' & D)] (F0 & P0 & <-); [cbn in P0; lra|]. exists (ln (B2R x')). split; auto. split; auto.
Qed.
Lemma back_near g v W a lW la x' ap' : gamma_fits g -> (0 <= v <= 255)%Z -> lnf W lW -> Rabs lW <= 3 -> lnf a la -> Rabs la <= 6 ->
  near ((lut_at g v [*] W) [*] a) x' -> near (a [*] WA) ap' ->
  Bto_uint 255 (pow32 (((WA [/] W) [*] x') [/] ap') (e_out g) [*] BofZ 24 128 256) = v.
Proof.
  intros Hg Hv FW HW Fa Ha NX NA. destruct (weight_ok 625 1000) as (lA & FA & HA); try lia. fold WA in FA.
  apply Rabs_le_inv in HA. apply Rabs_le_inv in HW. apply Rabs_le_inv in Ha. assert (U : 0 < u23 < 13 / 100000000) by (unfold u23; lra).
  destruct (mul_ln _ _ _ _ Fa FA) as (l5 & F5 & E5). { apply Rabs_le; lra. } apply Rabs_le_inv in E5.
  destruct (near_pos _ _ _ NA F5) as (l5' & F5' & E5'). apply Rabs_le_inv in E5'.
  destruct (div_ln _ _ _ _ FA FW) as (l1 & F1 & E1). { apply Rabs_le; lra. } apply Rabs_le_inv in E1.
  destruct (Z.eq_dec v 0) as [->|N].
  - rewrite (channel_nil pow32 Acc g W a lW la Hg FW Fa) in NX. destruct NX as [[_ ->]|(_ & X & _)]; [|cbn in X; pose proof (bpow_gt_0 radix2 (-50)); lra].
    destruct (exponents g Hg) as (X1 & X2 & X3 & X4 & X5). destruct Acc as [_ Z].
    destruct (ColorFacts.pos_shape _ _ F1) as (m3 & e3 & H3 & ->). cbn [Bmult xorb].
    destruct (ColorFacts.pos_shape _ _ F5') as (m4 & e4 & H4 & ->). cbn [Bdiv xorb].
    rewrite Z by (auto; lra). destruct (ColorFacts.pos_shape _ _ (lnf_ofZ 256 ltac:(lia))) as (m6 & e6 & H6 & ->). reflexivity.
  - destruct (lut_ln pow32 pow64 Acc g v Hg ltac:(lia)) as (ly & Fy & Ey & Ry). apply Rabs_le_inv in Ey.
    destruct (mul_ln _ _ _ _ Fy FW) as (l2 & F2 & E2). { apply Rabs_le; lra. } apply Rabs_le_inv in E2.
    destruct (mul_ln _ _ _ _ F2 Fa) as (l3 & F3 & E3). { apply Rabs_le; lra. } apply Rabs_le_inv in E3.
    destruct (near_pos _ _ _ NX F3) as (l3' & F3' & E3'). apply Rabs_le_inv in E3'.
    destruct (mul_ln _ _ _ _ F1 F3') as (l4 & F4 & E4). { apply Rabs_le; lra. } apply Rabs_le_inv in E4.
    destruct (div_ln _ _ _ _ F4 F5') as (l6 & F6 & E6). { apply Rabs_le; lra. } apply Rabs_le_inv in E6.
    apply (show_near g v _ l6 Hg ltac:(lia) F6). apply Rabs_le. lra.
Qed.

(** Alpha. *)
Lemma alpha_near v ap' : (1 <= v <= 255)%Z -> near (alpha v [*] WA) ap' ->
  Bltb ap' MIN_alpha = false /\ Bto_uint 255 (K_alpha [*] ap') = v.
Proof.
  intros Hv NA. destruct (weight_ok 625 1000) as (lA & FA & HA); try lia. fold WA in FA.
  destruct (alpha_ln v Hv) as (la & Fa & Ha). apply Rabs_le_inv in HA. apply Rabs_le_inv in Ha. assert (U : 0 < u23 < 13 / 100000000) by (unfold u23; lra).
  destruct (mul_ln _ _ _ _ Fa FA) as (l5 & F5 & E5). { apply Rabs_le; lra. } apply Rabs_le_inv in E5.
  destruct (near_pos _ _ _ NA F5) as (l5' & F5' & E5').
  destruct (div_ln _ _ _ _ (lnf_ofZ v ltac:(lia)) (lnf_ofZ 255 ltac:(lia))) as (la2 & (Fa2 & _ & La2) & Ea). { pose proof (ln_byte v Hv). pose proof (ln_byte 255 ltac:(lia)). apply Rabs_le; lra. }
  change (Bdiv mode_NE (BofZ 24 128 v) (BofZ 24 128 255)) with (alpha v) in La2. assert (la2 = la) by (destruct Fa as (_ & _ & <-); auto). subst la2. apply Rabs_le_inv in Ea.
  assert (L256 : 0 <= ln 256 <= 577 / 100) by exact (ln_byte 256 ltac:(lia)) || (replace 256 with (2 ^ 8) by lra; rewrite ln_pow by lra; pose proof ln2_lt; pose proof ln2_pos; simpl INR; lra).
  destruct Hv as [V1 V2]. assert (V1' := IZR_le _ _ V1). assert (V2' := IZR_le _ _ V2).
  split.
  - destruct F5 as (G1 & G2 & G3). destruct F5' as (G1' & G2' & G3'). rewrite <- G3', <- G3 in E5'.
    apply from_ln in E5'; [|auto|auto|lra]. apply Rabs_le_inv in E5'.
    pose proof (alpha_val (fun x _ => x) (fun x _ => x) v ltac:(lia)) as AV. apply Rabs_le_inv in AV. unfold u24 in AV.
    destruct alpha_one as (_ & _ & FM & _).
    assert (EM : B2SF MIN_alpha = SpecFloat.S754_finite false 10485760 (-32)) by (vm_compute; reflexivity).
    assert (VM : B2R MIN_alpha = 625 / 256000). { rewrite <- SF2R_B2SF, EM. unfold SF2R, F2R. cbn. lra. }
    destruct (Bltb ap' MIN_alpha) eqn:B; auto. apply (Bltb_fin 24 128) in B; auto. rewrite VM in B. exfalso. lra.
  - apply Rabs_le_inv in E5'. unfold K_alpha.
    destruct (div_ln _ _ _ _ (lnf_ofZ 256 ltac:(lia)) FA) as (lk & FK & EK). { apply Rabs_le. lra. } apply Rabs_le_inv in EK.
    destruct (mul_ln _ _ _ _ FK F5') as (lf & (F1 & F2 & F3) & Ef). { apply Rabs_le. lra. } apply Rabs_le_inv in Ef.
    set (y := _ [*] ap') in *.
    assert (N : Rabs (ln (B2R y) - ln (256 * IZR v / 255)) <= 14 / 1000000).
    { rewrite LnFacts.ln_div, ln_mult by lra. rewrite F3. apply Rabs_le. lra. }
    apply from_ln in N; [|auto|apply Rdiv_lt_0_compat; lra|lra]. apply Rabs_le_inv in N.
    apply to_uint_eq; auto; [lia|lra|].
    destruct (Z.eq_dec v 255) as [->|NV]; [right; auto|]. left. rewrite plus_IZR.
    assert (V3 : (v <= 254)%Z) by lia. apply IZR_le in V3. lra.
Qed.
End Channel.

Section I.
Variables (pow32 : b32 -> b32 -> b32) (pow64 : b64 -> b64 -> b64) (Acc : pow32_accurate pow32) (PU : pow32_unit pow32).
Notation Ar := (ieee pow32 pow64).
Local Existing Instance ieee.

Lemma fits_pos g : gamma_fits g -> Bltb (B754_zero false) g = true.
Proof. intros [F H]. apply Bltb_fin; auto. cbn [B2R]. lra. Qed.
Lemma from_clear g c : gamma_fits g -> rgba_ok c -> ca c = 0%Z -> @from_rgba Ar (@gamma_lut Ar g) c = @px0 Ar.
Proof.
  intros Hg (Hr & Hgr & Hb & _) E. unfold from_rgba. rewrite E. unfold byte in *.
  assert (K : forall v W, (0 <= v <= 255)%Z -> (exists l, lnf W l /\ Rabs l <= 3) -> Bmult mode_NE (Bmult mode_NE (lut_at pow32 g v) W) (Bdiv mode_NE (BofZ 24 128 0) (BofZ 24 128 255)) = B754_zero false).
  { intros v W Hv (lW & FW & HW). replace (Bdiv mode_NE (BofZ 24 128 0) (BofZ 24 128 255)) with (B754_zero false : b32) by (vm_compute; reflexivity).
    destruct (Z.eq_dec v 0) as [->|N].
    - rewrite (zero_lut pow32 Acc g Hg). destruct (ColorFacts.pos_shape W _ FW) as (m & e & H & ->). reflexivity.
    - destruct (lut_ln pow32 pow64 Acc g v Hg ltac:(lia)) as (ly & Fy & Ey & Ry). apply Rabs_le_inv in HW.
      destruct (mul_ln _ _ _ _ Fy FW) as (l2 & F2 & E2). { apply Rabs_le; lra. }
      destruct (ColorFacts.pos_shape _ _ F2) as (m & e & H & ->). reflexivity. }
  unfold px0. f_equal.
  - exact (K (cr c) WR ltac:(lia) WR_ok).
  - exact (K (Base.cg c) WG ltac:(lia) WG_ok).
  - exact (K (Base.cb c) WB ltac:(lia) WB_ok).
Qed.

Lemma pixel_values g c : gamma_fits g -> rgba_ok c -> cvalues pow32 pow64 (@from_rgba Ar (@gamma_lut Ar g) c).
Proof.
  intros Hg R. destruct (Z.eq_dec (ca c) 0) as [E|N].
  - rewrite (from_clear g c Hg R E). split; [|split; [|split]]; left; reflexivity.
  - pose proof (pixel_box pow32 pow64 PU g c (fits_pos g Hg) R) as (B1 & B2 & B3 & B4).
    apply nonneg1 in B1 as [_ B1]; [|lia]. apply nonneg1 in B2 as [_ B2]; [|lia]. apply nonneg1 in B3 as [_ B3]; [|lia]. apply nonneg1 in B4 as [_ B4]; [|lia].
    destruct R as (Hr & Hgr & Hb & Ha). unfold byte in *. destruct (alpha_ln (ca c) ltac:(lia)) as (la & Fa & La).
    assert (M : forall x l, lnf x l -> Rabs l <= 24 -> B2R x <= 1 -> cvalue x).
    { intros x l (F & P & E) L U. right. split; auto. split; auto. destruct (bpow_range (B2R x) l 50 P E) as [Q _]; [lia|lra|exact Q]. }
    assert (K : forall v W x, (0 <= v <= 255)%Z -> (exists l, lnf W l /\ Rabs l <= 3) -> x = Bmult mode_NE (Bmult mode_NE (lut_at pow32 g v) W) (alpha (ca c)) -> 0 <= B2R x <= 1 -> cvalue x).
    { intros v W x Hv (lW & FW & HW) -> U. destruct (Z.eq_dec v 0) as [->|N0].
      - left. apply (channel_nil pow32 Acc g W _ lW la Hg FW Fa).
      - destruct (channel_ln pow32 pow64 Acc g v W _ lW la Hg ltac:(lia) FW HW Fa La) as (l & Fl & _ & L). eapply M; [exact Fl|exact L|apply U]. }
    split; [|split; [|split]].
    + destruct (weight_ok 625 1000) as (lA & FA & HA); try lia. fold WA in FA. apply Rabs_le_inv in HA. apply Rabs_le_inv in La.
      destruct (mul_ln _ _ _ _ Fa FA) as (l5 & F5 & E5). { apply Rabs_le; lra. } apply Rabs_le_inv in E5. unfold u23 in E5.
      eapply M; [exact F5|apply Rabs_le; lra|apply B1].
    + apply (K (cr c) WR); [lia|exact WR_ok|reflexivity|exact B2].
    + apply (K (Base.cg c) WG); [lia|exact WG_ok|reflexivity|exact B3].
    + apply (K (Base.cb c) WB); [lia|exact WB_ok|reflexivity|exact B4].
Qed.

(** What is shown of a colour that is nearly an 8-bit colour. *)
Lemma back_color g c (p : @px Ar) : gamma_fits g -> rgba_ok c -> near_px pow32 pow64 (@from_rgba Ar (@gamma_lut Ar g) c) p ->
  @to_rgb Ar p g = if (ca c =? 0)%Z then Rgba 0 0 0 0 else c.
Proof.
  intros Hg R N. destruct (Z.eqb_spec (ca c) 0) as [E|NE].
  - rewrite (from_clear g c Hg R E) in N. destruct N as ([[_ N]|(_ & X & _)] & _).
    + unfold to_rgb. rewrite N. reflexivity.
    + exfalso. cbn in X. pose proof (bpow_gt_0 radix2 (-50)). lra.
  - destruct N as (N1 & N2 & N3 & N4). destruct R as (Hr & Hgr & Hb & Ha). unfold byte in *.
    destruct (alpha_ln (ca c) ltac:(lia)) as (la & Fa & La).
    destruct (alpha_near (ca c) (pa p) ltac:(lia) N1) as [A1 A2].
    destruct WR_ok as (lr & FR & HR). destruct WG_ok as (lg & FG & HG). destruct WB_ok as (lb & FB & HB).
    pose proof (back_near pow32 pow64 Acc g (cr c) WR _ lr la (pr p) (pa p) Hg ltac:(lia) FR HR Fa La N2 N1) as Q1.
    pose proof (back_near pow32 pow64 Acc g (Base.cg c) WG _ lg la (pg p) (pa p) Hg ltac:(lia) FG HG Fa La N3 N1) as Q2.
    pose proof (back_near pow32 pow64 Acc g (Base.cb c) WB _ lb la (pb p) (pa p) Hg ltac:(lia) FB HB Fa La N4 N1) as Q3.
    transitivity (if Bltb (pa p) MIN_alpha then Rgba 0 0 0 0 else
      Rgba (Bto_uint 255 (Bmult mode_NE (pow32 (Bdiv mode_NE (Bmult mode_NE (Bdiv mode_NE WA WR) (pr p)) (pa p)) (e_out g)) (BofZ 24 128 256)))
           (Bto_uint 255 (Bmult mode_NE (pow32 (Bdiv mode_NE (Bmult mode_NE (Bdiv mode_NE WA WG) (pg p)) (pa p)) (e_out g)) (BofZ 24 128 256)))
           (Bto_uint 255 (Bmult mode_NE (pow32 (Bdiv mode_NE (Bmult mode_NE (Bdiv mode_NE WA WB) (pb p)) (pa p)) (e_out g)) (BofZ 24 128 256)))
           (Bto_uint 255 (Bmult mode_NE K_alpha (pa p)))); [reflexivity|].
    rewrite A1, A2, Q1, Q2, Q3. destruct c; reflexivity.
Qed.
End I.
