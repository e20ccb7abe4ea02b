(** The averages of median cut in IEEE floating point: single-precision sums
    of weighted colours, in the order of the list. *)
From Coq Require Import Reals Lra.
From Verif Require Import Base BaseFacts Arith Order Ieee IeeeFacts SmallFloat Pal World Attr Hist Nearest MedianCut Kmeans MedianFacts MedianIeee AvgIeee.
From Flocq Require Import IEEE754.BinarySingleNaN Core.Core Mult_error Relative Plus_error.
Open Scope R_scope.

Definition u24 : R := / 16777216.               (* 2^-24 *)
Lemma u_ro24 : u_ro radix2 24 = u24.
Proof. unfold u_ro, u24. cbn. lra. Qed.
Lemma rnd32_plus_rel (x y : b32) : exists e, Rabs e <= u24 /\ rnd32 (B2R x + B2R y) = (B2R x + B2R y) * (1 + e).
Proof.
  destruct (FLT_plus_error_N_ex radix2 (-149) 24 (fun x => negb (Z.even x)) (B2R x) (B2R y)) as (e & E1 & E2).
  - exact (generic_format_B2R 24 128 x).
  - exact (generic_format_B2R 24 128 y).
  - exists e. split; [|exact E2]. apply Rle_trans with (1 := E1). rewrite <- u_ro24. apply u_rod1pu_ro_le_u_ro.
Qed.
Lemma rnd32_up x : bpow radix2 (-126) <= x -> rnd32 x <= x * (1 + u24).
Proof.
  intros H. pose proof (bpow_gt_0 radix2 (-126)) as P.
  pose proof (relative_error_N_FLT radix2 (-149) 24 eq_refl (fun x => negb (Z.even x)) x) as R.
  assert (HA : bpow radix2 (-149 + 24 - 1) <= Rabs x) by (rewrite Rabs_pos_eq by lra; exact H). specialize (R HA).
  rewrite (Rabs_pos_eq x) in R by lra. apply Rabs_le_inv in R.
  change (round radix2 (FLT_exp (-149) 24) (Znearest (fun x => negb (Z.even x))) x) with (rnd32 x) in R.
  change (bpow radix2 (- (24) + 1)) with (/ 8388608) in R. unfold u24. lra.
Qed.

(** Doubling and halving commute with rounding away from the subnormals. *)
Lemma rnd32_scale j y : (-10 <= j <= 10)%Z -> bpow radix2 (-110) <= y -> rnd32 (bpow radix2 (- j) * y) = bpow radix2 (- j) * rnd32 y.
Proof.
  intros J H. pose proof (bpow_gt_0 radix2 (-110)) as P. assert (Y : y <> 0) by lra.
  assert (MG : mag radix2 (y * bpow radix2 (- j)) = (mag radix2 y - j)%Z :> Z) by (rewrite mag_mult_bpow by auto; lia).
  assert (M0 : (-109 <= mag radix2 y)%Z).
  { apply Z.le_trans with (mag radix2 (bpow radix2 (-110)) : Z); [rewrite mag_bpow; lia|]. apply mag_le; auto. }
  rewrite (Rmult_comm (bpow radix2 (- j))). unfold round.
  assert (CE : cexp radix2 (SpecFloat.fexp 24 128) (y * bpow radix2 (- j)) = (cexp radix2 (SpecFloat.fexp 24 128) y - j)%Z).
  { unfold cexp. rewrite MG. unfold SpecFloat.fexp, SpecFloat.emin. lia. }
  assert (SM : scaled_mantissa radix2 (SpecFloat.fexp 24 128) (y * bpow radix2 (- j)) = scaled_mantissa radix2 (SpecFloat.fexp 24 128) y).
  { unfold scaled_mantissa. rewrite CE. rewrite Rmult_assoc, <- bpow_plus. f_equal. f_equal. lia. }
  rewrite SM, CE. unfold F2R. cbn [Fnum Fexp]. unfold Zminus. rewrite bpow_plus. ring.
Qed.
Lemma rnd32_0 : rnd32 0 = 0.
Proof. apply round_0, valid_rnd_N. Qed.
Lemma rnd32_le_bpow k x : (-149 <= k)%Z -> x <= bpow radix2 k -> rnd32 x <= bpow radix2 k.
Proof.
  intros K H. apply round_le_generic; auto; [apply (fexp_correct 24 128 eq_refl)|apply valid_rnd_N|].
  apply generic_format_bpow. unfold SpecFloat.fexp, SpecFloat.emin. lia.
Qed.
Lemma rnd32_ge_bpow k x : (-149 <= k)%Z -> bpow radix2 k <= x -> bpow radix2 k <= rnd32 x.
Proof.
  intros K H. apply round_ge_generic; auto; [apply (fexp_correct 24 128 eq_refl)|apply valid_rnd_N|].
  apply generic_format_bpow. unfold SpecFloat.fexp, SpecFloat.emin. lia.
Qed.

(** How far a sum of weights can get. *)
Definition eps22 : R := / 4194304.              (* 2^-22 *)
Definition caps (k : Z) (n : nat) (cap : nat -> R) : Prop :=
  0 <= cap 0%nat /\ (forall i, (i <= n)%nat -> cap i < bpow radix2 128) /\
  forall i t w, (i < n)%nat -> t <= cap i -> w <= bpow radix2 k -> rnd32 (t + w) <= cap (S i).
Definition fits (k : Z) (n : nat) : Prop :=
  (-100 <= k)%Z /\ ((k + 25 <= 127)%Z \/ ((Z.of_nat n <= 16777216)%Z /\ IZR (Z.of_nat n) * bpow radix2 k < bpow radix2 128)).
Lemma fits_caps k n : fits k n -> exists cap, caps k n cap.
Proof.
  intros [K [H|[N H]]].
  - exists (fun _ => bpow radix2 (k + 25)). split; [apply bpow_ge_0|]. split; [intros; apply bpow_lt; lia|].
    intros i t w _ T W. apply (saturates 24 128 eq_refl (k + 25) k); auto; unfold SpecFloat.emin; lia.
  - exists (fun i => IZR (Z.of_nat i) * bpow radix2 k). split; [cbn; lra|]. split.
    + intros i I. apply Rle_lt_trans with (2 := H). apply Rmult_le_compat_r; [apply bpow_ge_0|]. apply IZR_le. lia.
    + intros i t w I T W. apply round_le_generic; [apply (fexp_correct 24 128 eq_refl)|apply valid_rnd_N| |rewrite Nat2Z.inj_succ, succ_IZR; lra].
      destruct (Z.eq_dec (Z.of_nat (S i)) 16777216) as [->|NE].
      * replace (IZR 16777216) with (bpow radix2 24) by (cbn; lra). rewrite <- bpow_plus. apply generic_format_bpow. unfold SpecFloat.fexp, SpecFloat.emin. lia.
      * apply (generic_format_FLT radix2 (-149) 24). exists (Float radix2 (Z.of_nat (S i)) k); [reflexivity| |cbn; lia].
        cbn [Fnum]. rewrite Z.abs_eq by lia. change (radix2 ^ 24)%Z with 16777216%Z. lia.
Qed.
Lemma fits_le k n m : fits k n -> (m <= n)%nat -> fits k m.
Proof.
  intros [K [H|[N H]]] M; split; auto. right. split; [lia|]. apply Rle_lt_trans with (2 := H).
  apply Rmult_le_compat_r; [apply bpow_ge_0|]. apply IZR_le. lia.
Qed.

Section I.
Variables (pow32 : b32 -> b32 -> b32) (pow64 : b64 -> b64 -> b64).
Let Ar : Arith := ieee pow32 pow64.
Local Existing Instance Ar.
Notation box := (box_px pow32 pow64).

(** Colours as they come from pixels: alpha is at most its weight 0.625, red
    and blue are at most alpha, green at most twice alpha. *)
Definition ink (p : px) : Prop := box p /\ B2R (pa p) <= 5 / 8 /\ B2R (pr p) <= B2R (pa p) /\ B2R (pb p) <= B2R (pa p) /\
  B2R (pg p) <= 2 * B2R (pa p) /\ (B2R (pa p) = 0 \/ bpow radix2 (-10) <= B2R (pa p)).
(** Colours in a box with alpha at most [k] and the other channels not much
    above alpha. *)
Definition zone (k hr hg : R) (p : px) : Prop := box p /\ B2R (pa p) <= k /\ B2R (pr p) - B2R (pa p) <= hr /\
  B2R (pb p) - B2R (pa p) <= hr /\ B2R (pg p) - B2R (pa p) <= hg.
Definition K1 : R := 163 / 256.

Lemma box_bounds (p : @px Ar) : box p -> (0 <= B2R (pa p) <= 1) /\ (0 <= B2R (pr p) <= 1 / 2) /\ (0 <= B2R (pg p) <= 1) /\ (0 <= B2R (pb p) <= 1 / 2).
Proof.
  assert (Q : forall k x, nonneg k x -> 0 <= B2R x <= bpow radix2 k) by (intros k x [[_ H] P]; rewrite Rabs_pos_eq in H by auto; lra).
  intros (H1 & H2 & H3 & H4). apply Q in H1, H2, H3, H4. 
  assert (E0 : bpow radix2 0 = 1) by reflexivity. assert (E1 : bpow radix2 (-1) = 1 / 2) by (cbn; lra). rewrite E0, E1 in *.
  auto.
Qed.
Lemma box_zone (p : @px Ar) : box p -> zone 1 (1 / 2) 1 p.
Proof. intros B. pose proof (box_bounds p B). split; auto. repeat split; lra. Qed.
Lemma ink_zone (p : @px Ar) : ink p -> zone K1 0 (1 / 2) p.
Proof. intros (B & H1 & H2 & H3 & H4 & _). pose proof (box_bounds p B). split; auto. unfold K1. lra. Qed.
Lemma px0_box : box px0.
Proof.
  assert (Z0 : forall k, nonneg k (@f0 Ar)).
  { intros k. destruct (BofZ_exact 24 128 0) as [F V]; try lia. split; [split; [exact F|]|]; change (@f0 Ar) with (BofZ 24 128 0); rewrite V; [rewrite Rabs_R0; apply bpow_ge_0|lra]. }
  split; [apply Z0|]. split; [apply Z0|]. split; apply Z0.
Qed.
Lemma f0_val : B2R (@f0 Ar) = 0.
Proof. exact (proj2 (BofZ_exact 24 128 0 ltac:(lia) ltac:(lia) ltac:(lia))). Qed.
Lemma px0_zone : zone K1 0 (1 / 2) px0.
Proof. split; [apply px0_box|]. cbn [px0 pa pr pg pb]. rewrite f0_val. unfold K1. lra. Qed.
Lemma zone_le k hr hg k' hr' hg' p : zone k hr hg p -> k <= k' -> hr <= hr' -> hg <= hg' -> zone k' hr' hg' p.
Proof. intros (B & H) X Y Z. split; auto. lra. Qed.

(** The running sums. *)
Definition part32 (j : Z) (x t : b32) : Prop := is_finite x = true /\ 0 <= B2R x <= bpow radix2 (- j) * B2R t.
Record sums (cap : R) (m : nat) (t : px) (s : b32) : Prop := {
  sm_f : is_finite s = true;
  sm_low : B2R s = 0 \/ bpow radix2 (-100) <= B2R s;
  sm_cap : B2R s <= cap;
  sm_a : part32 0 (pa t) s; sm_r : part32 1 (pr t) s; sm_g : part32 0 (pg t) s; sm_b : part32 1 (pb t) s;
  sm_ra : B2R (pr t) <= B2R (pa t); sm_ba : B2R (pb t) <= B2R (pa t); sm_ga : B2R (pg t) <= 2 * B2R (pa t);
  sm_al : B2R (pa t) = 0 \/ bpow radix2 (-110) <= B2R (pa t);
  sm_k : B2R (pa t) <= 5 / 8 * (1 + eps22) ^ S m * B2R s
}.
Lemma sums_0 cap : 0 <= cap -> sums cap 0 px0 (@f0 Ar).
Proof.
  intros C. assert (P : forall j, part32 j (@f0 Ar) (@f0 Ar)) by (intros j; split; [reflexivity|]; rewrite f0_val; lra).
  constructor; try (exact (P _)); cbn [px0 pa pr pg pb]; rewrite ?f0_val; try lra; auto; reflexivity.
Qed.
Lemma add32_fin (x y t w : b32) : is_finite x = true -> is_finite y = true -> 0 <= B2R x <= B2R t -> 0 <= B2R y <= B2R w ->
  rnd32 (B2R t + B2R w) < bpow radix2 128 -> is_finite (Bplus mode_NE x y) = true /\ B2R (Bplus mode_NE x y) = rnd32 (B2R x + B2R y) /\ 0 <= rnd32 (B2R x + B2R y).
Proof.
  intros Fx Fy X Y C. assert (P : 0 <= rnd32 (B2R x + B2R y)) by (apply rnd32_pos; lra).
  destruct (proj1 (Bplus_fin 24 128 x y Fx Fy)) as [F V]; [|auto].
  rewrite Rabs_pos_eq by auto. apply Rle_lt_trans with (2 := C). apply rnd32_mono. lra.
Qed.
Lemma part_step j x t y w : (0 <= j <= 10)%Z -> (B2R t = 0 \/ bpow radix2 (-100) <= B2R t) -> (B2R w = 0 \/ bpow radix2 (-100) <= B2R w) ->
  rnd32 (B2R t + B2R w) < bpow radix2 128 -> B2R (Bplus mode_NE t w) = rnd32 (B2R t + B2R w) ->
  part32 j x t -> part32 j y w -> part32 j (Bplus mode_NE x y) (Bplus mode_NE t w) /\ B2R (Bplus mode_NE x y) = rnd32 (B2R x + B2R y).
Proof.
  intros J T W C V [FX X] [FY Y].
  assert (BJ : 0 < bpow radix2 (- j) <= 1) by (split; [apply bpow_gt_0|change 1 with (bpow radix2 0); apply bpow_le; lia]).
  pose proof (bpow_gt_0 radix2 (-100)) as P100.
  assert (T0 : 0 <= B2R t) by (destruct T; lra). assert (W0 : 0 <= B2R w) by (destruct W; lra).
  assert (XT : B2R x <= B2R t) by (assert (bpow radix2 (- j) * B2R t <= 1 * B2R t) by (apply Rmult_le_compat_r; lra); lra).
  assert (YW : B2R y <= B2R w) by (assert (bpow radix2 (- j) * B2R w <= 1 * B2R w) by (apply Rmult_le_compat_r; lra); lra).
  destruct (add32_fin x y t w FX FY ltac:(lra) ltac:(lra) C) as (F & V' & P0). split; [|exact V']. split; [exact F|]. rewrite V', V. split; [exact P0|].
  assert (D : B2R t + B2R w = 0 \/ bpow radix2 (-100) <= B2R t + B2R w) by (destruct T, W; [left|right|right|right]; lra).
  destruct D as [D|D].
  - assert (B2R t = 0) as ZT by lra. assert (B2R w = 0) as ZW by lra. rewrite ZT, ZW, Rmult_0_r in *.
    replace (B2R x + B2R y) with 0 by lra. rewrite Rplus_0_l, rnd32_0. lra.
  - rewrite <- rnd32_scale; [apply rnd32_mono; lra|lia|]. apply Rle_trans with (2 := D). apply bpow_le. lia.
Qed.
Lemma eps_pow_pos m : 1 <= (1 + eps22) ^ m.
Proof. apply pow_R1_Rle. unfold eps22. lra. Qed.
Lemma sums_step k cap cap' m t s c w : sums cap m t s -> ink c -> wt_ok k w -> (B2R w = 0 \/ bpow radix2 (-100) <= B2R w) ->
  rnd32 (B2R s + B2R w) <= cap' -> cap' < bpow radix2 128 -> sums cap' (S m) (px_add t (px_scale c w)) (Bplus mode_NE s w).
Proof.
  intros [F L Cp A R G B RA BA GA AL KK] (BC & I1 & I2 & I3 & I4 & I5) W WL UB CB.
  pose proof (box_bounds c BC) as BB. destruct BC as (B1 & B2 & B3 & B4).
  pose proof (wt_pos k w W) as W0. pose proof (bpow_gt_0 radix2 (-100)) as P100. pose proof (bpow_gt_0 radix2 (-110)) as P110.
  assert (S0 : 0 <= B2R s) by (destruct L; lra).
  assert (C : rnd32 (B2R s + B2R w) < bpow radix2 128) by lra.
  assert (PS : 0 <= rnd32 (B2R s + B2R w)) by (apply rnd32_pos; lra).
  destruct (proj1 (Bplus_fin 24 128 s w F (proj1 W))) as [FS VS]; [rewrite Rabs_pos_eq; auto|].
  assert (Q : forall j x, (0 <= j <= 10)%Z -> nonneg (- j) x -> part32 j (Bmult mode_NE x w) w /\ B2R (Bmult mode_NE x w) = rnd32 (B2R x * B2R w)).
  { intros j x J N. destruct (scaled_ok j k x w J W N) as [FX X]. split; [split; auto|].
    destruct (Bmult_fin 24 128 x w (proj1 (proj1 N)) (proj1 W)) as [M1 M2].
    apply M1, M2, FX. }
  destruct (Q 0%Z (pa c) ltac:(lia) B1) as [Pa Va]. destruct (Q 1%Z (pr c) ltac:(lia) B2) as [Pr Vr].
  destruct (Q 0%Z (pg c) ltac:(lia) B3) as [Pg Vg]. destruct (Q 1%Z (pb c) ltac:(lia) B4) as [Pb Vb]. clear Q.
  set (ya := Bmult mode_NE (pa c) w) in *. set (yr := Bmult mode_NE (pr c) w) in *. set (yg := Bmult mode_NE (pg c) w) in *. set (yb := Bmult mode_NE (pb c) w) in *.
  destruct (part_step 0 (pa t) s ya w ltac:(lia) L WL C VS A Pa) as [Ta Wa].
  destruct (part_step 1 (pr t) s yr w ltac:(lia) L WL C VS R Pr) as [Tr Wr].
  destruct (part_step 0 (pg t) s yg w ltac:(lia) L WL C VS G Pg) as [Tg Wg].
  destruct (part_step 1 (pb t) s yb w ltac:(lia) L WL C VS B Pb) as [Tb Wb].
  (* the alpha of the new item *)
  assert (YA : B2R ya = 0 \/ bpow radix2 (-110) <= B2R ya).
  { rewrite Va. destruct I5 as [Z0|I5]; [left; rewrite Z0, Rmult_0_l; apply rnd32_0|].
    destruct WL as [Z0|WL]; [left; rewrite Z0, Rmult_0_r; apply rnd32_0|]. right. apply rnd32_ge_bpow; [lia|].
    replace (-110)%Z with (-10 + -100)%Z by lia. rewrite bpow_plus. pose proof (bpow_gt_0 radix2 (-10)). apply Rmult_le_compat; lra. }
  assert (YG : B2R yg <= 2 * B2R ya).
  { rewrite Va, Vg. destruct I5 as [Z0|I5].
    - rewrite Z0 in *. rewrite Rmult_0_l, rnd32_0, Rmult_0_r. assert (GZ : B2R (pg c) = 0) by lra. rewrite GZ. rewrite Rmult_0_l, rnd32_0. lra.
    - destruct WL as [Z0|WL]; [rewrite Z0, !Rmult_0_r, rnd32_0; lra|].
      change 2 with (bpow radix2 (- -1)). rewrite <- rnd32_scale; [|lia|].
      + apply rnd32_mono. rewrite <- Rmult_assoc. apply Rmult_le_compat_r; [lra|]. cbn. lra.
      + replace (-110)%Z with (-10 + -100)%Z by lia. rewrite bpow_plus. pose proof (bpow_gt_0 radix2 (-10)). apply Rmult_le_compat; lra. }
  assert (YK : B2R ya <= 5 / 8 * (1 + u24) * B2R w).
  { rewrite Va. destruct WL as [Z0|WL]; [rewrite Z0, !Rmult_0_r, rnd32_0; lra|].
    apply Rle_trans with (rnd32 (5 / 8 * B2R w)); [apply rnd32_mono, Rmult_le_compat_r; lra|].
    eapply Rle_trans; [apply rnd32_up|lra].
    apply Rle_trans with (/ 2 * bpow radix2 (-100)); [|lra]. change (/ 2) with (bpow radix2 (-1)). rewrite <- bpow_plus. apply bpow_le. lia. }
  assert (YR : B2R yr <= B2R ya) by (rewrite Va, Vr; apply rnd32_mono, Rmult_le_compat_r; lra).
  assert (YB : B2R yb <= B2R ya) by (rewrite Va, Vb; apply rnd32_mono, Rmult_le_compat_r; lra).
  assert (A0 : 0 <= B2R (pa t)) by apply A. assert (Y0 : 0 <= B2R ya) by apply Pa.
  constructor; cbn [px_add px_scale pa pr pg pb]; auto.
  - change (B2R (Bplus mode_NE s w) = 0 \/ bpow radix2 (-100) <= B2R (Bplus mode_NE s w)). rewrite VS.
    destruct L as [LS|LS], WL as [LW|LW]; try (right; apply rnd32_ge_bpow; [lia|lra]). left. rewrite LS, LW, Rplus_0_l. apply rnd32_0.
  - change (B2R (Bplus mode_NE s w) <= cap'). rewrite VS. auto.
  - change (B2R (Bplus mode_NE (pr t) yr) <= B2R (Bplus mode_NE (pa t) ya)). rewrite Wr, Wa. apply rnd32_mono. lra.
  - change (B2R (Bplus mode_NE (pb t) yb) <= B2R (Bplus mode_NE (pa t) ya)). rewrite Wb, Wa. apply rnd32_mono. lra.
  - change (B2R (Bplus mode_NE (pg t) yg) <= 2 * B2R (Bplus mode_NE (pa t) ya)). rewrite Wg, Wa.
    destruct (Rle_lt_dec (bpow radix2 (-110)) (B2R (pa t) + B2R ya)) as [H|H].
    + change 2 with (bpow radix2 (- -1)). rewrite <- rnd32_scale; [|lia|auto]. apply rnd32_mono. cbn. lra.
    + assert (Z1 : B2R (pa t) = 0) by (destruct AL; lra). assert (Z2 : B2R ya = 0) by (destruct YA; lra).
      pose proof (proj1 (proj2 G)). pose proof (proj1 (proj2 Pg)).
      replace (B2R (pg t) + B2R yg) with 0 by lra. rewrite Z1, Z2, Rplus_0_l, rnd32_0. lra.
  - change (B2R (Bplus mode_NE (pa t) ya) = 0 \/ bpow radix2 (-110) <= B2R (Bplus mode_NE (pa t) ya)). rewrite Wa.
    destruct AL as [L1|L1], YA as [L2|L2]; try (right; apply rnd32_ge_bpow; [lia|lra]). left. rewrite L1, L2, Rplus_0_l. apply rnd32_0.
  - change (B2R (Bplus mode_NE (pa t) ya) <= 5 / 8 * (1 + eps22) ^ S (S m) * B2R (Bplus mode_NE s w)). 
    rewrite Wa, VS.
    destruct (rnd32_plus_rel (pa t) ya) as (e1 & E1 & ->). destruct (rnd32_plus_rel s w) as (e2 & E2 & ->).
    apply Rabs_le_inv in E1, E2. pose proof (eps_pow_pos m) as PW. change ((1 + eps22) ^ S (S m)) with ((1 + eps22) * ((1 + eps22) * (1 + eps22) ^ m)).
    change ((1 + eps22) ^ S m) with ((1 + eps22) * (1 + eps22) ^ m) in KK. set (q := (1 + eps22) ^ m) in *.
    assert (H1 : B2R (pa t) + B2R ya <= 5 / 8 * ((1 + eps22) * q) * (B2R s + B2R w)).
    { enough (5 / 8 * (1 + u24) * B2R w <= 5 / 8 * ((1 + eps22) * q) * B2R w) by lra. apply Rmult_le_compat_r; [lra|]. apply Rmult_le_compat_l; [lra|].
      apply Rle_trans with ((1 + eps22) * 1); [unfold u24, eps22; lra|]. apply Rmult_le_compat_l; [unfold eps22|]; lra. }
    apply Rle_trans with ((B2R (pa t) + B2R ya) * (1 + u24)); [apply Rmult_le_compat_l; lra|].
    apply Rle_trans with (5 / 8 * ((1 + eps22) * q) * (B2R s + B2R w) * (1 + u24)); [apply Rmult_le_compat_r; [unfold u24; lra|exact H1]|].
    apply Rle_trans with (5 / 8 * ((1 + eps22) * ((1 + eps22) * q)) * ((B2R s + B2R w) * (1 - u24))).
    + assert (HE : 1 + u24 <= (1 + eps22) * (1 - u24)) by (unfold u24, eps22; lra).
      replace (5 / 8 * ((1 + eps22) * ((1 + eps22) * q)) * ((B2R s + B2R w) * (1 - u24))) with (5 / 8 * ((1 + eps22) * q) * (B2R s + B2R w) * ((1 + eps22) * (1 - u24))) by ring.
      apply Rmult_le_compat_l; [|exact HE]. apply Rmult_le_pos; [|lra]. apply Rmult_le_pos; [lra|]. apply Rmult_le_pos; [unfold eps22|]; lra.
    + apply Rmult_le_compat_l; [apply Rmult_le_pos; [lra|]; apply Rmult_le_pos; [unfold eps22; lra|]; apply Rmult_le_pos; [unfold eps22|]; lra|].
      apply Rmult_le_compat_l; lra.
Qed.
Lemma bernoulli n : IZR (Z.of_nat n) * eps22 < 1 -> (1 + eps22) ^ n * (1 - IZR (Z.of_nat n) * eps22) <= 1.
Proof.
  assert (E0 : 0 < eps22) by (unfold eps22; lra).
  induction n as [|n IH]; intros H; [cbn; lra|]. rewrite Nat2Z.inj_succ, succ_IZR in H |- *. cbn [pow].
  set (x := IZR (Z.of_nat n)) in *. assert (X0 : 0 <= x) by (apply (IZR_le 0); lia).
  specialize (IH ltac:(lra)). pose proof (eps_pow_pos n) as PW. set (q := (1 + eps22) ^ n) in *.
  apply Rle_trans with (2 := IH). replace ((1 + eps22) * q * (1 - (x + 1) * eps22)) with (q * ((1 + eps22) * (1 - (x + 1) * eps22))) by ring.
  apply Rmult_le_compat_l; [lra|]. assert (0 <= x * eps22) by (apply Rmult_le_pos; lra). nra.
Qed.

Definition modest_n (n : nat) : Prop := (Z.of_nat n <= 50000)%Z.
Definition inkc (k : Z) (c : px * @f32 Ar * @f32 Ar) : Prop := ink (fst (fst c)) /\ wt_ok k (snd (fst c)).
Lemma average_sums k n cap l : caps k n cap -> (length l <= n)%nat -> Forall (inkc k) (map core l) ->
  exists t s, fold_left (fun '(t, s) c => (px_add t (px_scale (h_color c) (h_adj c)), s +f h_adj c)%flt) l (px0, f0) = (t, s) /\ sums (cap (length l)) (length l) t s.
Proof.
  intros (C0 & C1 & C2) L F.
  assert (H : forall l i t s, (i + length l <= n)%nat -> Forall (inkc k) (map core l) -> sums (cap i) i t s ->
    exists t' s', fold_left (fun '(t, s) c => (px_add t (px_scale (h_color c) (h_adj c)), s +f h_adj c)%flt) l (t, s) = (t', s') /\ sums (cap (i + length l)%nat) (i + length l) t' s').
  { clear l L F. induction l as [|c l IH]; intros i t s L F S; cbn [fold_left length] in *.
    - exists t, s. split; auto. rewrite Nat.add_0_r. exact S.
    - cbn [map] in F. apply Forall_cons_iff in F as [[F1 F2] F]. cbn [core fst snd] in F1, F2.
      replace (i + Datatypes.S (length l))%nat with (Datatypes.S i + length l)%nat by lia. apply IH; auto; [lia|].
      apply (sums_step k (cap i)); auto; [apply F2| |apply C1; lia]. apply C2; [lia|apply S|apply F2]. }
  destruct (H l 0%nat px0 (@f0 Ar) ltac:(lia) F (sums_0 _ C0)) as (t & s & E & S). exists t, s. split; auto.
Qed.
Lemma quot32 j x t : (0 <= j <= 10)%Z -> part32 j x t -> 0 < B2R t -> nonneg (- j) (Bdiv mode_NE x t) /\ B2R (Bdiv mode_NE x t) = rnd32 (B2R x / B2R t).
Proof.
  intros J [FX X] P.
  assert (Q : 0 <= B2R x / B2R t <= bpow radix2 (- j)).
  { split; [apply Rmult_le_pos; [lra|left; apply Rinv_0_lt_compat; auto]|].
    apply Rmult_le_reg_r with (B2R t); auto. unfold Rdiv. rewrite Rmult_assoc, Rinv_l by lra. lra. }
  assert (Q2 : 0 <= rnd32 (B2R x / B2R t) <= bpow radix2 (- j)) by (split; [apply rnd32_pos; lra|apply rnd32_le_bpow; [lia|lra]]).
  destruct (proj1 (Bdiv_fin 24 128 x t FX ltac:(lra))) as [F V].
  { rewrite Rabs_pos_eq by lra. apply Rle_lt_trans with (1 := proj2 Q2). apply bpow_lt. lia. }
  split; [|exact V]. split; [split; [exact F|]|]; rewrite V; [rewrite Rabs_pos_eq|]; apply Q2.
Qed.
Lemma average_zone k l : fits k (length l) -> Forall (inkc k) (map core l) ->
  box (weighed_average_color l) /\ (modest_n (length l) -> zone K1 0 (1 / 2) (weighed_average_color l)).
Proof.
  intros FT F. destruct (fits_caps k (length l) FT) as (cap & CP). destruct (average_sums k (length l) cap l CP (le_n _) F) as (t & s & E & [Fs L Cp A R G B RA BA GA AL KK]).
  unfold weighed_average_color. rewrite E.
  assert (SV : (s =f f0)%flt = Req_bool (B2R s) 0) by (rewrite <- f0_val; exact (Beqb_correct 24 128 s f0 Fs eq_refl)).
  rewrite SV. pose proof (bpow_gt_0 radix2 (-100)) as P100.
  destruct (Req_bool_spec (B2R s) 0) as [Z0|NZ]; cbn [negb].
  - (* no weight at all *)
    assert (Q : forall j x, part32 j x s -> B2R x = 0) by (intros j x [_ H]; rewrite Z0, Rmult_0_r in H; lra).
    assert (N : forall j k x, part32 j x s -> nonneg k x).
    { intros j k0 x H. pose proof (Q j x H) as V. split; [split; [apply H|]|]; rewrite V; [rewrite Rabs_R0; apply bpow_ge_0|lra]. }
    assert (BT : box t) by (split; [eauto|split; [eauto|split; eauto]]). split; auto. intros _. split; auto.
    rewrite (Q _ _ A), (Q _ _ R), (Q _ _ G), (Q _ _ B). unfold K1. lra.
  - assert (P : 0 < B2R s) by (destruct L; lra).
    destruct (quot32 0 _ s ltac:(lia) A P) as [Na Va]. destruct (quot32 1 _ s ltac:(lia) R P) as [Nr Vr].
    destruct (quot32 0 _ s ltac:(lia) G P) as [Ng Vg]. destruct (quot32 1 _ s ltac:(lia) B P) as [Nb Vb].
    assert (BT : box (px_divs t s)) by (split; [exact Na|split; [exact Nr|split; [exact Ng|exact Nb]]]). split; auto. intros MN.
    assert (IP : 0 < / B2R s) by (apply Rinv_0_lt_compat; auto).
    split; auto. unfold px_divs. cbn [pa pr pg pb].
    change (fdiv (pa t) s) with (Bdiv mode_NE (pa t) s). change (fdiv (pr t) s) with (Bdiv mode_NE (pr t) s).
    change (fdiv (pg t) s) with (Bdiv mode_NE (pg t) s). change (fdiv (pb t) s) with (Bdiv mode_NE (pb t) s).
    assert (MR : forall x y : b32, B2R x <= B2R y -> rnd32 (B2R x / B2R s) <= rnd32 (B2R y / B2R s)).
    { intros x y H. apply rnd32_mono, Rmult_le_compat_r; lra. }
    rewrite Va, Vr, Vg, Vb. pose proof (MR _ _ RA). pose proof (MR _ _ BA).
    split; [|split; [lra|split; [lra|]]].
    + (* alpha *)
      assert (H1 : B2R (pa t) / B2R s <= 5 / 8 * (1 + eps22) ^ S (length l)).
      { apply Rmult_le_reg_r with (B2R s); auto. unfold Rdiv. rewrite Rmult_assoc, Rinv_l by lra. lra. }
      assert (N1 : IZR (Z.of_nat (S (length l))) <= 50001) by (unfold modest_n in MN; apply IZR_le; lia).
      pose proof (bernoulli (S (length l)) ltac:(unfold eps22; lra)) as BN. pose proof (eps_pow_pos (S (length l))) as PW.
      set (q := (1 + eps22) ^ S (length l)) in *.
      assert (Q1 : q <= 1 + 1 / 64).
      { apply Rmult_le_reg_r with (1 - IZR (Z.of_nat (S (length l))) * eps22); [unfold eps22; lra|]. apply Rle_trans with (1 := BN). unfold eps22. lra. }
      apply round_le_generic; [apply (fexp_correct 24 128 eq_refl)|apply valid_rnd_N| |unfold K1; lra].
      apply (generic_format_FLT radix2 (-149) 24). exists (Float radix2 163 (-8)); [unfold K1, F2R; cbn; lra|cbn; lia|cbn; lia].
    + (* green *)
      assert (GQ : 0 <= B2R (pg t) / B2R s <= 2 * (B2R (pa t) / B2R s)).
      { split; [apply Rmult_le_pos; [apply G|lra]|]. unfold Rdiv. rewrite <- Rmult_assoc. apply Rmult_le_compat_r; lra. }
      pose proof (box_bounds _ BT) as BB. unfold px_divs in BB. cbn [pa pr pg pb] in BB.
      change (fdiv (pa t) s) with (Bdiv mode_NE (pa t) s) in BB. change (fdiv (pg t) s) with (Bdiv mode_NE (pg t) s) in BB. rewrite Va, Vg in BB.
      destruct (Rle_lt_dec (bpow radix2 (-110)) (B2R (pa t) / B2R s)) as [H1|H1].
      * assert (rnd32 (B2R (pg t) / B2R s) <= 2 * rnd32 (B2R (pa t) / B2R s)); [|lra].
        change 2 with (bpow radix2 (- -1)). rewrite <- rnd32_scale; [|lia|auto]. apply rnd32_mono. cbn. lra.
      * assert (rnd32 (B2R (pg t) / B2R s) <= bpow radix2 (-1)); [|change (bpow radix2 (-1)) with (/ 2) in *; lra].
        apply rnd32_le_bpow; [lia|]. assert (bpow radix2 (-110) <= bpow radix2 (-2)) by (apply bpow_le; lia).
        change (bpow radix2 (-2)) with (/ 4) in *. change (bpow radix2 (-1)) with (/ 2). lra.
Qed.
End I.
