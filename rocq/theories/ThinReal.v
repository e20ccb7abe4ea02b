(** How far apart the entries of the gamma table are, and so two different
    colours. *)
From Coq Require Import Reals Lra.
From Verif Require Import Base Arith Ieee IeeeFacts Order Pal SpecPow RealArith NearReal LnFacts ColorFacts SmallFloat MedianIeee AvgIeee SimdFacts
  MetricIeee NearIeee ContrastIeee FiniteRemap SpecImage Nearest Kmeans ApartIeee.
From Flocq Require Import IEEE754.BinarySingleNaN Core.Core.
Open Scope R_scope.

Lemma ln255 : ln 255 <= 8 * ln 2.
Proof.
  replace (8 * ln 2) with (ln 256); [apply ln_le; lra|]. replace 256 with (2 ^ 8) by lra. rewrite ln_pow by lra. simpl INR. lra.
Qed.
Lemma ln1389 : 104 / 10 * ln 2 <= ln 1389.
Proof.
  assert (H : ln (2 ^ 52) <= ln (1389 ^ 5)) by (apply ln_le; lra). rewrite !ln_pow in H by lra. simpl INR in H. lra.
Qed.
(** An entry of the table over its index. *)
Lemma table_slope e v : 1 <= e <= 13 / 10 -> 1 <= v <= 255 -> / 1389 <= exp (e * (ln v - ln 255)) / v.
Proof.
  intros E V. assert (L0 : 0 <= ln v) by (rewrite <- ln_1; apply ln_le; lra). pose proof ln255. pose proof ln1389. pose proof ln2_pos.
  replace (exp (e * (ln v - ln 255)) / v) with (exp ((e - 1) * ln v - e * ln 255)).
  - rewrite <- (exp_ln (/ 1389)) by lra. apply exp_mono. rewrite ln_Rinv by lra.
    assert (0 <= ln 255) by (rewrite <- ln_1; apply ln_le; lra).
    assert (0 <= (e - 1) * ln v) by (apply Rmult_le_pos; lra).
    assert (e * ln 255 <= 13 / 10 * (8 * ln 2)) by (apply Rmult_le_compat; lra). lra.
  - replace ((e - 1) * ln v - e * ln 255) with (e * (ln v - ln 255) + - ln v) by ring.
    rewrite exp_plus, exp_Ropp, exp_ln by lra. reflexivity.
Qed.
Lemma table_flat e v : 1 / 2 <= e <= 1 -> 1 <= v <= 255 -> v / 255 <= exp (e * (ln v - ln 255)).
Proof.
  intros E V. replace (v / 255) with (exp (ln v - ln 255)) by (rewrite <- ln_div by lra; apply exp_ln; lra).
  apply exp_mono. assert (ln v <= ln 255) by (apply ln_le; lra). nra.
Qed.
Definition kap : R := 998 / 1000 / 1389.
Lemma first_sharp e v M l : 1 / 2 <= e <= 13 / 10 -> 1 <= v <= 255 -> 0 < M -> Rabs (l - (e * (ln v - ln 255) + ln M)) <= delta ->
  M * kap <= exp l.
Proof.
  intros E V HM H. apply exp_low in H; auto. set (x := exp (e * (ln v - ln 255))) in *.
  assert (X : / 1389 <= x).
  { destruct (Rle_dec 1 e) as [G|G].
    - pose proof (table_slope e v ltac:(lra) V) as T. fold x in T. assert (XP : 0 < x) by apply exp_pos.
      assert (x / v <= x); [|lra]. apply Rmult_le_reg_r with v; [lra|]. unfold Rdiv. rewrite Rmult_assoc, Rinv_l by lra. nra.
    - pose proof (table_flat e v ltac:(lra) V) as T. fold x in T. lra. }
  assert (M * / 1389 <= x * M) by nra. unfold delta, kap in *. lra.
Qed.
Lemma gap_sharp e v v' M l l' : 1 / 2 <= e <= 13 / 10 -> 1 <= v -> v + 1 <= v' -> v' <= 255 -> 0 < M ->
  Rabs (l - (e * (ln v - ln 255) + ln M)) <= delta -> Rabs (l' - (e * (ln v' - ln 255) + ln M)) <= delta ->
  M * kap <= exp l' - exp l.
Proof.
  intros E V VV V' HM H H'. pose proof (exp_low _ _ _ HM H) as X. apply Rabs_le_inv in H. apply Rabs_le_inv in H'.
  set (x := exp (e * (ln v - ln 255))) in *. assert (XP : 0 < x) by apply exp_pos.
  replace (exp l' - exp l) with (exp l * (exp (l' - l) - 1)) by (unfold Rminus at 2; rewrite exp_plus, exp_Ropp; field; apply Rgt_not_eq, exp_pos).
  assert (IV : / 255 <= / v) by (apply Rinv_le; lra).
  destruct (Rle_dec 1 e) as [G|G].
  - pose proof (table_slope e v ltac:(lra) ltac:(lra)) as T. fold x in T.
    assert (L : ln (1 + / v) - 2 * delta <= l' - l).
    { assert (Q : ln (1 + / v) <= ln v' - ln v).
      { rewrite <- ln_div by lra. apply ln_le; [lra|]. apply Rmult_le_reg_r with v; [lra|]. unfold Rdiv. rewrite (Rmult_assoc v'), Rinv_l by lra.
        rewrite Rmult_plus_distr_r, Rinv_l by lra. lra. }
      assert (0 <= ln (1 + / v)) by (rewrite <- ln_1 at 1; apply ln_le; lra).
      assert (1 * (ln v' - ln v) <= e * (ln v' - ln v)) by (apply Rmult_le_compat_r; lra). lra. }
    assert (G2 : (1 + / v) * (1 - 2 * delta) <= exp (l' - l)).
    { apply Rle_trans with (exp (ln (1 + / v) - 2 * delta)); [|apply exp_mono; exact L].
      unfold Rminus at 2. rewrite exp_plus, exp_ln by lra. apply Rmult_le_compat_l; [lra|]. pose proof (exp_ge (- (2 * delta))). lra. }
    assert (G3 : / v * (9984 / 10000) <= exp (l' - l) - 1).
    { apply Rle_trans with ((1 + / v) * (1 - 2 * delta) - 1); [|lra]. unfold delta. assert (/ v <= 1) by (rewrite <- Rinv_1; apply Rinv_le; lra). lra. }
    apply Rle_trans with (x * M * (1 - delta) * (/ v * (9984 / 10000))).
    + replace (x * M * (1 - delta) * (/ v * (9984 / 10000))) with (M * (x / v * ((1 - delta) * (9984 / 10000)))) by (unfold Rdiv; ring).
      apply Rmult_le_compat_l; [lra|]. unfold kap, delta. lra.
    + apply Rmult_le_compat; try lra. unfold delta. nra.
  - pose proof (table_flat e v ltac:(lra) ltac:(lra)) as T. fold x in T.
    pose proof (ln_step v v' V VV) as S.
    assert (IV2 : / 256 <= / (v + 1)) by (apply Rinv_le; lra).
    assert (L : 99 / 100 * (e / (v + 1)) <= l' - l).
    { assert (e * / (v + 1) <= e * (ln v' - ln v)) by (apply Rmult_le_compat_l; lra). unfold delta, Rdiv in *.
      assert (/ 512 <= e * / (v + 1)) by nra. lra. }
    pose proof (exp_ge (l' - l)) as GE.
    assert (HV : / 2 <= v * / (v + 1)). { apply Rmult_le_reg_r with (v + 1); [lra|]. rewrite Rmult_assoc, Rinv_l by lra. lra. }
    assert (P : 0 < e / (v + 1)) by (apply Rdiv_lt_0_compat; lra).
    apply Rle_trans with (v / 255 * M * (1 - delta) * (99 / 100 * (e / (v + 1)))).
    + replace (v / 255 * M * (1 - delta) * (99 / 100 * (e / (v + 1)))) with (M * ((v * / (v + 1)) * e * ((1 - delta) * (99 / 100) / 255))) by (unfold Rdiv; ring).
      apply Rmult_le_compat_l; [lra|]. assert (/ 4 <= v * / (v + 1) * e) by nra. unfold kap, delta. lra.
    + apply Rmult_le_compat; try lra.
      * unfold delta. assert (0 <= v / 255) by lra. nra.
      * eapply Rle_trans; [|exact X]. apply Rmult_le_compat_r; [unfold delta; lra|]. nra.
Qed.

Section I.
Variables (pow32 : b32 -> b32 -> b32) (pow64 : b64 -> b64 -> b64) (Acc : pow32_accurate pow32).
Notation Ar := (ieee pow32 pow64).
Local Existing Instance ieee.
Notation lut_at := (lut_at pow32).
Lemma G64_sharp : 5699 / 10000 <= B2R G64 <= 5701 / 10000.
Proof.
  destruct (BofZ_exact 53 1024 57) as [F1 V1]; try lia. destruct (BofZ_exact 53 1024 100) as [F2 V2]; try lia.
  destruct (div64_ln (BofZ 53 1024 57) (BofZ 53 1024 100)) as (F & P & L); auto; try (rewrite ?V1, ?V2; lra).
  { rewrite V1, V2, <- ln_div by lra. apply Rle_trans with 3; [apply ln_small; lra|lra]. }
  fold G64 in F, P, L. rewrite V1, V2 in L. rewrite <- ln_div in L by lra.
  apply from_ln in L; auto; [|lra|unfold u23; lra]. apply Rabs_le_inv in L. unfold u23 in L. lra.
Qed.
Lemma e_in_sharp g : gamma_usual g -> 1 / 2 <= B2R (e_in g) <= 13 / 10.
Proof.
  intros H. destruct (e_in_usual g H) as [X1 X3]. split; [lra|].
  destruct H as [Fg Rg]. pose proof G64_sharp as RG. destruct G64_ok as [FG _].
  assert (LG : Rabs (ln (B2R G64)) <= 3) by (apply ln_small; lra).
  assert (Lg : Rabs (ln (B2R g)) <= 3) by (apply ln_small; lra).
  apply Rabs_le_inv in LG, Lg.
  destruct (div64_ln G64 g) as (F1 & P1 & L1); auto; try lra. { apply Rabs_le; lra. }
  apply Rabs_le_inv in L1. unfold u23 in L1.
  destruct (conv_ln _ _ F1 P1 eq_refl) as (l1 & (C1 & C2 & C3) & C4). { apply Rabs_le; lra. }
  fold (e_in g) in *. apply Rabs_le_inv in C4. unfold u23 in C4.
  assert (Q1 : Rabs (ln (B2R (e_in g)) - ln (B2R G64 / B2R g)) <= 2 * u23).
  { rewrite ln_div by lra. apply Rabs_le. unfold u23. lra. }
  assert (R1 : 56 / 100 <= B2R G64 / B2R g <= 1296 / 1000).
  { split; apply Rmult_le_reg_r with (B2R g); try lra; unfold Rdiv; rewrite ?Rmult_assoc, ?Rinv_l by lra; lra. }
  apply from_ln in Q1; [|auto|lra|unfold u23; lra]. apply Rabs_le_inv in Q1. unfold u23 in Q1. lra.
Qed.
Lemma chan_apart_sharp g v v' W a lW la : gamma_usual g -> (0 <= v <= 255)%Z -> (0 <= v' <= 255)%Z -> v <> v' ->
  lnf W lW -> Rabs lW <= 3 -> lnf a la -> Rabs la <= 6 ->
  B2R W * B2R a * kap <=
  Rabs (B2R (Bmult mode_NE (Bmult mode_NE (lut_at g v) W) a) - B2R (Bmult mode_NE (Bmult mode_NE (lut_at g v') W) a)).
Proof.
  intros Hg. assert (Hf := usual_fits g Hg). pose proof (e_in_sharp g Hg) as HE.
  assert (Main : forall v v', (0 <= v)%Z -> (v < v')%Z -> (v' <= 255)%Z -> lnf W lW -> Rabs lW <= 3 -> lnf a la -> Rabs la <= 6 ->
    B2R W * B2R a * kap <=
    B2R (Bmult mode_NE (Bmult mode_NE (lut_at g v') W) a) - B2R (Bmult mode_NE (Bmult mode_NE (lut_at g v) W) a)).
  { clear v v'. intros v v' V0 VV V1 FW HW Fa Ha.
    assert (M : 0 < B2R W * B2R a) by (destruct FW as (_ & ? & _); destruct Fa as (_ & ? & _); apply Rmult_lt_0_compat; auto).
    destruct (channel_ln pow32 pow64 Acc g v' W a lW la Hf ltac:(lia) FW HW Fa Ha) as (l' & (_ & P' & <-) & D' & _).
    assert (VB' : 1 <= IZR v' <= 255) by (split; apply IZR_le; lia).
    destruct (Z.eq_dec v 0) as [->|N].
    - rewrite (channel_nil pow32 Acc g W a lW la Hf FW Fa). cbn [B2R]. pose proof (first_sharp _ _ _ _ HE VB' M D') as Q. rewrite exp_ln in Q by auto. lra.
    - destruct (channel_ln pow32 pow64 Acc g v W a lW la Hf ltac:(lia) FW HW Fa Ha) as (l & (_ & P & <-) & D & _).
      pose proof (gap_sharp _ (IZR v) (IZR v') _ _ _ HE ltac:(apply IZR_le; lia) ltac:(rewrite <- plus_IZR; apply IZR_le; lia) (proj2 VB') M D D') as Q.
      rewrite !exp_ln in Q by auto. lra. }
  intros V V' N FW HW Fa Ha. destruct (Z.lt_total v v') as [L|[L|L]]; [| contradiction |].
  - rewrite Rabs_minus_sym. eapply Rle_trans; [apply (Main v v'); auto; lia|apply Rle_abs].
  - eapply Rle_trans; [apply (Main v' v); auto; lia|apply Rle_abs].
Qed.

(** The least distance between different colours. *)
Definition gmin : R := 124 / 100000000.
Definition differ (c c' : rgba) : Prop := ((ca c = 0 /\ ca c' <> 0) \/ (ca c <> 0 /\ c <> c'))%Z.
Lemma apart_any g c c' : gamma_usual g -> rgba_ok c -> rgba_ok c' -> differ c c' ->
  gmin < rdist pow32 pow64 (@from_rgba Ar (@gamma_lut Ar g) c) (@from_rgba Ar (@gamma_lut Ar g) c') /\
  ((ca c <> ca c' \/ 16 <= ca c)%Z -> eta < rdist pow32 pow64 (@from_rgba Ar (@gamma_lut Ar g) c) (@from_rgba Ar (@gamma_lut Ar g) c')).
Proof.
  intros Hg R R' D. destruct (rdist_chan pow32 pow64 (@from_rgba Ar (@gamma_lut Ar g) c) (@from_rgba Ar (@gamma_lut Ar g) c')) as (D1 & D2 & D3 & D4).
  destruct R as (Hr & Hgr & Hb & Ha). destruct R' as (Hr' & Hgr' & Hb' & Ha'). unfold byte in *.
  destruct (Z.eq_dec (ca c) (ca c')) as [EA|NA].
  - destruct D as [[D D']|[D D']]; [congruence|].
    destruct (alpha_ln (ca c) ltac:(lia)) as (la & Fa & La).
    destruct (div_byte (ca c) ltac:(lia)) as [_ Q]. apply Rabs_le_inv in Q. unfold u24 in Q.
    assert (Fin : forall W lW v v' d, lnf W lW -> Rabs lW <= 3 -> 4499 / 10000 <= B2R W -> (0 <= v <= 255)%Z -> (0 <= v' <= 255)%Z -> v <> v' ->
      Rabs (B2R (Bmult mode_NE (Bmult mode_NE (lut_at g v) W) (alpha (ca c))) - B2R (Bmult mode_NE (Bmult mode_NE (lut_at g v') W) (alpha (ca c')))) <= d ->
      gmin < d /\ ((ca c <> ca c' \/ 16 <= ca c)%Z -> eta < d)).
    { intros W lW v v' d FW HW WV V V' N X. rewrite <- EA in X. pose proof (chan_apart_sharp g v v' W (alpha (ca c)) lW la Hg V V' N FW HW Fa La) as G.
      split.
      - assert (A1 : 1 <= IZR (ca c)) by (apply IZR_le; lia).
        assert (4499 / 10000 * (39213 / 10000000) <= B2R W * B2R (alpha (ca c))) by (apply Rmult_le_compat; lra). unfold gmin, kap in *. lra.
      - intros [S|S]; [contradiction|]. apply IZR_le in S.
        assert (4499 / 10000 * (627 / 10000) <= B2R W * B2R (alpha (ca c))) by (apply Rmult_le_compat; lra). unfold eta, kap in *. lra. }
    assert (ND : (cr c <> cr c' \/ Base.cg c <> Base.cg c' \/ Base.cb c <> Base.cb c')%Z).
    { destruct c as [r g0 b a], c' as [r' g' b' a']. cbn in *. subst a'.
      destruct (Z.eq_dec r r'); [|auto]. destruct (Z.eq_dec g0 g'); [|auto]. destruct (Z.eq_dec b b'); [|auto]. congruence. }
    destruct ND as [ND|[ND|ND]].
    + destruct WR_ok as (lW & FW & HW). apply (Fin WR lW (cr c) (cr c')); [exact FW|exact HW| |lia|lia|exact ND|exact D1].
      pose proof (weight_val 5 10 ltac:(lia) ltac:(lia) (proj1 FW)) as EW. cbv zeta in EW. fold WR in EW. apply Rabs_le_inv in EW. unfold u24 in EW. lra.
    + destruct WG_ok as (lW & FW & HW). apply (Fin WG lW (Base.cg c) (Base.cg c')); [exact FW|exact HW| |lia|lia|exact ND|exact D2].
      unfold WG. destruct (BofZ_exact 24 128 1) as [_ ->]; try lia. lra.
    + destruct WB_ok as (lW & FW & HW). apply (Fin WB lW (Base.cb c) (Base.cb c')); [exact FW|exact HW| |lia|lia|exact ND|exact D3].
      pose proof (weight_val 45 100 ltac:(lia) ltac:(lia) (proj1 FW)) as EW. cbv zeta in EW. fold WB in EW. apply Rabs_le_inv in EW. unfold u24 in EW. lra.
  - pose proof (alpha_val pow32 pow64 (ca c) ltac:(lia)) as V. pose proof (alpha_val pow32 pow64 (ca c') ltac:(lia)) as V'.
    change (Rabs (B2R (Bmult mode_NE (alpha (ca c)) WA) - B2R (Bmult mode_NE (alpha (ca c')) WA)) <= 2 * rdist pow32 pow64 (@from_rgba Ar (@gamma_lut Ar g) c) (@from_rgba Ar (@gamma_lut Ar g) c')) in D4.
    set (x := B2R (Bmult mode_NE (alpha (ca c)) WA)) in *. set (y := B2R (Bmult mode_NE (alpha (ca c')) WA)) in *.
    apply Rabs_le_inv in V. apply Rabs_le_inv in V'. apply Rabs_le_inv in D4. unfold u24, eta, gmin in *.
    assert (1 <= IZR (ca c) - IZR (ca c') \/ 1 <= IZR (ca c') - IZR (ca c)).
    { destruct (Z.lt_total (ca c) (ca c')) as [L|[L|L]]; [right|contradiction|left]; rewrite <- minus_IZR; apply IZR_le; lia. }
    split; [|intros _]; lra.
Qed.
End I.
